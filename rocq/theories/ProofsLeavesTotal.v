(** * The depth-first leaves iterator with ancestors never panics and always terminates, from any state. *)
From Verif Require Import Prelim PrelimFacts Spec SpecFacts ModelNode NodeFacts ModelLeaves ProofsPlain ProofsPre.

Section Total.
  Context {Nd V : Type} (gvc : Nd -> V * list Nd) (nt : Nd -> tree Nd).
  Hypothesis Hnt : node_tree gvc nt.
  Local Notation kids := (nkids gvc).

  Definition size (n : Nd) : nat := length (preorder (nt n)).
  Definition sizes (l : list Nd) : nat := list_sum (map size l).
  Lemma size_unfold n : size n = S (sizes (kids n)).
  Proof.
    unfold size; rewrite (nt_unfold _ _ Hnt); cbn; f_equal; unfold sizes.
    induction (kids n) as [|c cs IH]; [reflexivity|]; cbn; rewrite app_length, IH; reflexivity.
  Qed.
  Lemma sizes_app a b : sizes (a ++ b) = sizes a + sizes b.
  Proof. unfold sizes; rewrite map_app, list_sum_app; reflexivity. Qed.

  Definition weight (s : daleaves Nd V) : nat :=
    3 * (sizes (concat (da_new s)) + sizes (concat (da_old s))) + length (da_new s) + length (da_old s) + length (da_items s).

  Lemma da_total m : forall b s, weight s <= m -> exists s', (fun f => loop (daleaves_body gvc) f (b, s)) ⇓ Ok s'.
  Proof.
    induction m as [|m IH]; intros b [r items old new] Hw; unfold weight in Hw; cbn [da_new da_old da_items] in Hw.
    - destruct new; [|cbn in Hw; lia]; destruct old; [|cbn in Hw; lia]; destruct items; [|cbn in Hw; lia].
      eexists; destruct b; apply loop_done; now_conv.
    - assert (Hpush : forall n items old new, 3 * (size n + sizes (concat new) + sizes (concat old)) + length new + length old + length items <= S m ->
        exists s', (fun f => loop (daleaves_body gvc) f (true, mkDa r (nval gvc n :: items) old (kids n :: new))) ⇓ Ok s').
      { intros n i o w H; apply IH; unfold weight; cbn [da_new da_old da_items concat length].
        rewrite sizes_app; rewrite size_unfold in H; lia. }
      assert (Hother : match new with (_ :: _) :: _ => False | _ => True end ->
        exists s', (fun f => loop (daleaves_body gvc) f (b, mkDa r items old new)) ⇓ Ok s').
      { intros Hn.
        assert (Hne : sizes (concat (tl new)) = sizes (concat new)) by (destruct new as [|[|? ?] ?]; [reflexivity|reflexivity|destruct Hn]).
        assert (Hln : length (tl new) <= length new) by (destruct new; cbn; lia).
        assert (Hbody : forall f, daleaves_body gvc f (b, mkDa r items old new) =
          if b then Ok (inr (mkDa r items old (tl new))) else
          match old with
          | (n :: top) :: rest => let '(value, children) := gvc n in
              Ok (inl (true, mkDa r (value :: items) (top :: rest) (children :: tl new)))
          | _ => match tl items with [] => Ok (inr (mkDa r (tl items) (tl old) (tl new)))
                 | _ => Ok (inl (b, mkDa r (tl items) (tl old) (tl new))) end
          end).
        { intros f; cbn; destruct new as [|[|? ?] ?]; [| |destruct Hn]; destruct b; reflexivity. }
        destruct b; [eexists; apply loop_done; apply conv_eq; intros f; apply Hbody|].
        destruct old as [|[|n top] rest].
        - destruct items as [|v [|v' items]]; cbn [tl] in Hbody.
          + eexists; apply loop_done; apply conv_eq; intros f; apply Hbody.
          + eexists; apply loop_done; apply conv_eq; intros f; apply Hbody.
          + destruct (IH false (mkDa r (v' :: items) [] (tl new))) as (s' & Hs);
              [unfold weight; cbn [da_new da_old da_items concat length] in *; lia|].
            exists s'; eapply loop_step; [apply conv_eq; intros f; apply Hbody|exact Hs].
        - destruct items as [|v [|v' items]]; cbn [tl] in Hbody.
          + eexists; apply loop_done; apply conv_eq; intros f; apply Hbody.
          + eexists; apply loop_done; apply conv_eq; intros f; apply Hbody.
          + destruct (IH false (mkDa r (v' :: items) rest (tl new))) as (s' & Hs);
              [unfold weight; cbn [da_new da_old da_items concat length] in *; cbn [app] in Hw; lia|].
            exists s'; eapply loop_step; [apply conv_eq; intros f; apply Hbody|exact Hs].
        - destruct (Hpush n items (top :: rest) (tl new)) as (s' & Hs).
          { cbn [concat length app] in *; unfold sizes in Hw at 2; cbn [map list_sum fold_right] in Hw; fold (list_sum (map size (top ++ concat rest))) in Hw.
            change (list_sum (map size (top ++ concat rest))) with (sizes (top ++ concat rest)) in Hw; lia. }
          exists s'; eapply loop_step; [|exact Hs].
          apply conv_eq; intros f; rewrite Hbody, (gv_eq gvc); reflexivity. }
      destruct new as [|[|n top] rest]; [apply Hother; exact I|apply Hother; exact I|].
      destruct (Hpush n items old (top :: rest)) as (s' & Hs).
      { cbn [concat length app] in *; unfold sizes in Hw at 1; cbn [map list_sum fold_right] in Hw.
        change (fold_right Nat.add 0 (map size (top ++ concat rest))) with (sizes (top ++ concat rest)) in Hw; lia. }
      exists s'; eapply loop_step; [|exact Hs].
      apply conv_eq; intros f; cbn; rewrite (gv_eq gvc); reflexivity.
  Qed.

  Lemma da_next_total s : exists o s', (fun f => daleaves_next gvc f s) ⇓ Ok (o, s').
  Proof.
    assert (H : exists s', (fun f => daleaves_advance gvc f s) ⇓ Ok s').
    { unfold daleaves_advance; destruct (da_root s) as [n|]; [rewrite (gv_eq gvc n)|]; eapply da_total, le_n. }
    destruct H as (s' & H); exists (daleaves_get s'), s'.
    unfold daleaves_next; eapply conv_bind; [exact H|]; now_conv.
  Qed.

  Lemma da_calls_total k : forall s, exists os s', calls (daleaves_next gvc) k s ⇓ Ok (os, s').
  Proof.
    induction k as [|k IH]; intros s; [exists [], s; apply calls_0|].
    destruct (da_next_total s) as (o & s1 & H1), (IH s1) as (os & s2 & H2).
    exists (o :: os), s2; eapply calls_S; eauto.
  Qed.
End Total.
