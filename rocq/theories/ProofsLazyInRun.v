(** * Runs of the inorder iterators over binary trees that are made as they are traversed. *)
From Coq Require Import Permutation.
From Verif Require Import Prelim PrelimFacts Spec SpecFacts SpecObs SpecEdit SpecLazy ModelNode NodeFacts ModelIn ModelLazyIn FuelMono.
From Verif Require Import Slots ProofsPlain ProofsPre ProofsPost ProofsIn ProofsExact ProofsTree ProofsEdit ProofsOwnMore ProofsLazy ProofsLazyCtx ProofsLazyInst ProofsLazyRun ProofsLazyDeep ProofsLazyIn.

Lemma bannotate_here_inorder {A} (t : btree A) : map pos_here (inorder (bpositions t)) = inorder t.
Proof. unfold bpositions; rewrite <- inorder_map, bannotate_here; reflexivity. Qed.

Section Runs.
  Context {Nd V : Type}.
  Variable gvcb : Nd -> V * (option Nd * option Nd).
  Variable t : btree Nd.
  Variable k : nat.
  Hypothesis Hb : bpart gvcb (broot t) t.
  Hypothesis Hh : hold k (iclaims gvcb t).
  Local Notation answers l := (map (nth_error l) (seq 0 k)).
  Local Notation L := (inorder (bpositions t)).

  Lemma run_inco : exists s, calls (linco_next gvcb) k (linco_new (broot t) []) ⇓ Ok (answers (map (fun p => no_children (context_at gvcb p)) L), s) /\
    Permutation (fst s) (entered_inorder k L).
  Proof.
    destruct (run_inc gvcb t k Hb Hh) as (s & Hc & Hl).
    destruct (follow (linc_next gvcb) (linco_next gvcb) (option_map no_children) (fun F => F) (fun _ _ s1 s2 => s2 = snd_map forget_inc s1)) with (k := k) (s1 := linc_new (V := V) (broot t) []) (s2 := linco_new (V := V) (broot t) [])
      (xs := answers (map (context_at gvcb) L)) (s1' := s) as (s2 & Hc2 & ->).
    - intros F m Y s1 s2 x s1' -> E; eexists; split; [exact (linco_next_sim gvcb F s1 x s1' E)|reflexivity].
    - apply more_linco.
    - reflexivity.
    - exact Hc.
    - rewrite map_outputs, map_map in Hc2; eauto.
  Qed.
  Lemma run_ina : exists s, calls (lina_next gvcb) k (lina_new (broot t)) ⇓ Ok (answers (map (ancestors_at gvcb) L), s) /\
    Permutation (fst s) (entered_inorder k L).
  Proof.
    destruct (run_inc gvcb t k Hb Hh) as (s & Hc & Hl).
    destruct (follow (linc_next gvcb) (lina_next gvcb) (option_map c_ancestors) (fun F => F) (fun _ _ s1 s2 => s2 = snd_map anc_inc s1)) with (k := k) (s1 := linc_new (V := V) (broot t) []) (s2 := lina_new (V := V) (broot t))
      (xs := answers (map (context_at gvcb) L)) (s1' := s) as (s2 & Hc2 & ->).
    - intros F m Y s1 s2 x s1' -> E; eexists; split; [exact (lina_next_sim gvcb F s1 x s1' E)|reflexivity].
    - apply more_lina.
    - reflexivity.
    - exact Hc.
    - rewrite map_outputs, map_map in Hc2; exists (snd_map anc_inc s); split; [exact Hc2|exact Hl].
  Qed.
  Lemma run_in : exists s, calls (lin_next gvcb) k (lin_new (broot t)) ⇓ Ok (answers (map (nval gvcb) (inorder t)), s) /\
    Permutation (fst s) (entered_inorder k L).
  Proof.
    destruct (run_inc gvcb t k Hb Hh) as (s & Hc & Hl).
    destruct (follow (linc_next gvcb) (lin_next gvcb) (last_of (V := V)) (fun F => F) (fun _ _ => Rin)) with (k := k) (s1 := linc_new (V := V) (broot t) []) (s2 := lin_new (V := V) (broot t))
      (xs := answers (map (context_at gvcb) L)) (s1' := s) as (s2 & Hc2 & H1 & _).
    - intros F m Y; apply lin_next_sim.
    - apply more_lin.
    - repeat split; right; eexists; reflexivity.
    - exact Hc.
    - exists s2; rewrite H1; split; [|exact Hl].
      assert (E : map (last_of (V := V)) (answers (map (context_at gvcb) L)) = answers (map (nval gvcb) (inorder t))); [|rewrite <- E; exact Hc2].
      rewrite <- (bannotate_here_inorder t), (map_map pos_here), map_map; apply map_ext; intros i; rewrite !nth_error_map.
      destruct (nth_error L i) as [p|]; cbn [option_map last_of]; [|reflexivity].
      unfold context_at; cbn [c_ancestors]; rewrite map_app, rev_app_distr; reflexivity.
  Qed.
End Runs.

Section Trees.
  Context {Nd V : Type}.
  Variable gvcb : Nd -> V * (option Nd * option Nd).

  Lemma iclaims_cut D : forall d n path above, length path + d = D ->
    Forall2 (fun p P => length (pos_path p) < D -> P : Prop) (inorder (bannotate path above (bcut gvcb d n))) (iclaims gvcb (bcut gvcb d n)).
  Proof.
    induction d as [|d IH]; intros n path above Hd; cbn [bcut bannotate inorder iclaims option_map].
    - cbn; constructor; [|constructor]; cbn [pos_path]; lia.
    - assert (IHl : forall i above o, Forall2 (fun p P => length (pos_path p) < D -> P : Prop)
        (match option_map (bannotate (path ++ [i]) above) (option_map (bcut gvcb d) o) with Some x => inorder x | None => [] end)
        match option_map (bcut gvcb d) o with Some u => iclaims gvcb u | None => [] end).
      { intros i a [c|]; cbn [option_map]; [|constructor]; apply IH; rewrite app_length; cbn; lia. }
      apply Forall2_app; [apply IHl|]; constructor; [|apply IHl].
      intros _; unfold nkids; split.
      + destruct (fst (snd (gvcb n))); cbn; constructor; apply bpart_bcut.
      + destruct (snd (snd (gvcb n))); cbn; constructor; apply bpart_bcut.
  Qed.
  Lemma in_cut k d n : Forall (fun p => length (pos_path p) < d) (firstn k (inorder (bpositions (bcut gvcb d n)))) -> hold k (iclaims gvcb (bcut gvcb d n)).
  Proof. exact (hold_of _ k _ _ (iclaims_cut d d n [] [] eq_refl)). Qed.
  Lemma broot_of_bcut d n : broot (bcut gvcb d n) = n.
  Proof. destruct d; reflexivity. Qed.
  Lemma in_cut_part d n : bpart gvcb (broot (bcut gvcb d n)) (bcut gvcb d n).
  Proof. rewrite broot_of_bcut; apply bpart_bcut. Qed.

  Lemma hold_all k l : Forall (fun P : Prop => P) l -> hold k l.
  Proof. intros H; revert k; unfold hold; induction H; intros [|k]; cbn; constructor; auto. Qed.
  Fixpoint bwhole_part (t : btree Nd) : forall n, bwhole gvcb n t -> broot t = n /\ bpart gvcb n t /\ Forall (fun P : Prop => P) (iclaims gvcb t).
  Proof.
    assert (Ho : forall o o', (forall u, o' = Some u -> forall m, bwhole gvcb m u -> broot u = m /\ bpart gvcb m u /\ Forall (fun P : Prop => P) (iclaims gvcb u)) ->
      bwhole_opt gvcb o o' -> bpart_opt gvcb o o' /\ Forall (fun P : Prop => P) (match o' with Some u => iclaims gvcb u | None => [] end)).
    { intros o o' H Hw; destruct Hw as [|c u Hw]; [split; constructor|]; destruct (H u eq_refl c Hw) as (_ & H1 & H2); split; [constructor; exact H1|exact H2]. }
    intros n Hw; destruct t as [v l r]; inversion Hw as [? ? ? Hl Hr]; subst; split; [reflexivity|].
    destruct (Ho _ l ltac:(intros u E; destruct l as [u'|]; [injection E as <-; exact (bwhole_part u')|discriminate]) Hl) as [H1 H2].
    destruct (Ho _ r ltac:(intros u E; destruct r as [u'|]; [injection E as <-; exact (bwhole_part u')|discriminate]) Hr) as [H3 H4].
    split; [apply bpart_node; assumption|]; cbn [iclaims]; apply Forall_app; split; [exact H2|]; constructor; [split; assumption|exact H4].
  Qed.

  (** After the last node there is nothing left to return to. *)
  Lemma last_inorder {A} : forall (t : btree A) path above p, length path = length above -> hd_error (rev (inorder (bannotate path above t))) = Some p ->
    turned_left p = map snd (filter (fun x => fst x =? 0) (combine path above)).
  Proof.
    fix IH 1; intros [v l r] path above p Hlen; cbn [bannotate inorder]; destruct r as [r|]; cbn [option_map].
    - rewrite !rev_app_distr, <- app_assoc.
      destruct (rev (inorder (bannotate (path ++ [1]) (above ++ [v]) r))) as [|q qs] eqn:E; intros H.
      + exfalso; destruct r as [v' l' r']; cbn [bannotate inorder] in E; apply (f_equal (@length _)) in E; rewrite rev_length, !app_length in E; cbn in E; lia.
      + cbn in H; injection H as <-; rewrite (IH r (path ++ [1]) (above ++ [v]) q) by (rewrite ?E, ?app_length; cbn; auto).
        rewrite combine_app' by exact Hlen; rewrite filter_app, map_app; cbn; apply app_nil_r.
    - rewrite !rev_app_distr; cbn; intros [= <-]; reflexivity.
  Qed.
  Lemma entered_all (t : btree Nd) k : length (inorder t) <= k -> Permutation (entered_inorder k (inorder (bpositions t))) (inorder t).
  Proof.
    intros Hk; rewrite <- (bannotate_here_inorder t) in Hk; rewrite map_length in Hk.
    unfold entered_inorder; rewrite firstn_all2 by exact Hk; rewrite bannotate_here_inorder.
    assert (E : match k with 0 => [] | S j => match nth_error (inorder (bpositions t)) j with Some p => turned_left p | None => [] end end = []); [|rewrite E, app_nil_r; reflexivity].
    destruct k as [|j]; [reflexivity|]; destruct (nth_error (inorder (bpositions t)) j) as [p|] eqn:E; [|reflexivity].
    assert (Hj : j < length (inorder (bpositions t))) by (apply nth_error_Some; congruence).
    unfold bpositions in *; erewrite (last_inorder t [] [] p); [reflexivity|reflexivity|].
    set (l := inorder (bannotate [] [] t)) in *; destruct (rev l) as [|q qs] eqn:Er; [apply (f_equal (@length _)) in Er; rewrite rev_length in Er; cbn in Er; lia|].
    cbn; f_equal; assert (El : l = rev qs ++ [q]) by (rewrite <- (rev_involutive l), Er; reflexivity).
    rewrite El in E, Hk, Hj; rewrite app_length in Hk, Hj; cbn [length] in Hk, Hj.
    rewrite nth_error_app2 in E by lia; replace (j - length (rev qs)) with 0 in E by lia; injection E as <-; reflexivity.
  Qed.

  (** ** Never coming back *)
  Variable path : nat -> Nd.
  Hypothesis Hp : forall i, fst (snd (gvcb (path i))) = Some (path (S i)).
  Lemma endless_inc_loop F : forall i log s, loop (linc_descend_body gvcb) F (Some (path i), (log, s)) = OutOfFuel.
  Proof.
    induction F as [|F IH]; intros i log s; [reflexivity|]; cbn [loop]; unfold linc_descend_body at 1; specialize (Hp i); destruct (gvcb (path i)) as [v [l r]]; cbn in Hp; subst l.
    cbn [bindR]; apply IH.
  Qed.
  Lemma endless_inco_loop F : forall i log s, loop (linco_descend_body gvcb) F (Some (path i), (log, s)) = OutOfFuel.
  Proof.
    induction F as [|F IH]; intros i log s; [reflexivity|]; cbn [loop]; unfold linco_descend_body at 1; specialize (Hp i); destruct (gvcb (path i)) as [v [l r]]; cbn in Hp; subst l.
    cbn [bindR]; apply IH.
  Qed.
  Lemma endless_ina_loop F : forall i log s, loop (lina_descend_body gvcb) F (Some (path i), (log, s)) = OutOfFuel.
  Proof.
    induction F as [|F IH]; intros i log s; [reflexivity|]; cbn [loop]; unfold lina_descend_body at 1; specialize (Hp i); destruct (gvcb (path i)) as [v [l r]]; cbn in Hp; subst l.
    cbn [bindR]; apply IH.
  Qed.
  Lemma endless_in_loop F : forall i log r its, loop (lin_descend_body gvcb) F (log, (Some (path i), r, its)) = OutOfFuel.
  Proof.
    induction F as [|F IH]; intros i log r0 s; [reflexivity|]; cbn [loop]; unfold lin_descend_body at 1; specialize (Hp i); destruct (gvcb (path i)) as [v [l r]]; cbn in Hp; subst l.
    cbn [bindR]; apply IH.
  Qed.
  Lemma endless_inc F P : linc_next gvcb F (linc_new (path 0) P) = OutOfFuel.
  Proof.
    destruct F as [|F]; [reflexivity|]; unfold linc_next, linc_advance, linc_new.
    assert (E : exists s', loop inc_find_body (S F) (inc_new (V := V) (path 0) P) = Ok (Descend (path 0) s')) by (eexists; reflexivity).
    destruct E as [s' E]; rewrite E; cbn [bindR]; rewrite endless_inc_loop; reflexivity.
  Qed.
  Lemma endless_inco F P : linco_next gvcb F (linco_new (path 0) P) = OutOfFuel.
  Proof.
    destruct F as [|F]; [reflexivity|]; unfold linco_next, linco_advance, linco_new.
    assert (E : exists s', loop inco_find_body (S F) (inco_new (V := V) (path 0) P) = Ok (Descend (path 0) s')) by (eexists; reflexivity).
    destruct E as [s' E]; rewrite E; cbn [bindR]; rewrite endless_inco_loop; reflexivity.
  Qed.
  Lemma endless_ina F : lina_next gvcb F (lina_new (path 0)) = OutOfFuel.
  Proof.
    destruct F as [|F]; [reflexivity|]; unfold lina_next, lina_advance, lina_new.
    assert (E : exists s', loop ina_find_body (S F) (ina_new (V := V) (path 0)) = Ok (Descend (path 0) s')) by (eexists; reflexivity).
    destruct E as [s' E]; rewrite E; cbn [bindR]; rewrite endless_ina_loop; reflexivity.
  Qed.
  Lemma endless_in F : lin_next gvcb F (lin_new (path 0)) = OutOfFuel.
  Proof.
    destruct F as [|F]; [reflexivity|]; unfold lin_next, lin_new.
    assert (E : exists r, loop in_find_body (S F) (in_right (in_new (V := V) (path 0)), in_items (in_new (V := V) (path 0))) = Ok (inr (Some (path 0), r))) by (eexists; reflexivity).
    destruct E as [r E]; rewrite E; cbn [bindR]; rewrite endless_in_loop; reflexivity.
  Qed.
End Trees.
