(** * ProofsUnwindIn: inorder iterators whose user code panics, by the simulations of ProofsUnwind. *)
From Verif Require Import Prelim PrelimFacts FuelMono Spec SpecObs ModelNode ModelBfs ModelPre ModelPost ModelIn ModelLeaves ModelUnwind SpecUnwind ProofsUnwind.

Section UIn.
  Context {Nd V : Type}.
  Variable gvcb : Nd -> option (V * (option Nd * option Nd)).

  Definition btot (n : Nd) : option V * (option Nd * option Nd) :=
    match gvcb n with Some (v, c) => (Some v, c) | None => (None, (None, None)) end.

  Lemma node_btot bt : fnode_btree gvcb bt -> node_btree btot bt.
  Proof. intros H n; rewrite H; unfold btot; destruct (gvcb n) as [[v [l r]]|]; reflexivity. Qed.

  Lemma seen_btot n : got (nval btot n) = seen gvcb n.
  Proof. unfold nval, btot, seen; destruct (gvcb n) as [[v c]|]; reflexivity. Qed.

  (** ** Plain *)
  Definition uin_R (s1 : in_iter Nd (option V)) (s2 : in_iter Nd V) : Prop :=
    in_items s1 = map Some (in_items s2) /\
    ((in_right s1 = in_right s2 /\ (length (in_right s2) = length (in_items s2) \/ length (in_right s2) = S (length (in_items s2)))) \/
     (in_right s1 = None :: in_right s2 /\ length (in_right s2) = length (in_items s2))).

  (** The first loop. *)
  Lemma find_even {W} (rights : list (option Nd)) (items : list W) : length rights = length items ->
    (fun f => loop in_find_body f (rights, items)) ⇓ Ok (inl (hd_error items, tl items, rights)).
  Proof. intros E; apply loop_done, conv_eq; intros; unfold in_find_body; rewrite E, Nat.eqb_refl; reflexivity. Qed.
  Lemma find_some {W} n (rights : list (option Nd)) (items : list W) : length rights = length items ->
    (fun f => loop in_find_body f (Some n :: rights, items)) ⇓ Ok (inr (Some n, rights)).
  Proof.
    intros E; apply loop_done, conv_eq; intros; unfold in_find_body; cbn [length]; rewrite E.
    replace (S (length items) =? length items) with false by (symmetry; apply Nat.eqb_neq; lia); destruct rights; reflexivity.
  Qed.
  Lemma find_none {W} (rights : list (option Nd)) (items : list W) : length rights = length items -> items <> [] ->
    (fun f => loop in_find_body f (None :: rights, items)) ⇓ Ok (inl (hd_error items, tl items, rights)).
  Proof.
    intros E Hne; eapply loop_step; [|apply find_even, E].
    apply conv_eq; intros; unfold in_find_body; cbn [length]; rewrite E.
    replace (S (length items) =? length items) with false by (symmetry; apply Nat.eqb_neq; lia).
    destruct rights; [destruct items; [congruence|discriminate E]|reflexivity].
  Qed.
  Lemma find_last {W} : (fun f => loop in_find_body f ([@None Nd], @nil W)) ⇓ Ok (inr (None, [])).
  Proof. apply loop_done, conv_eq; reflexivity. Qed.

  (** Whole calls: an even state gives the item on top. *)
  Lemma in_even {W} g (rights : list (option Nd)) (items : list W) b : length rights = length items ->
    (fun f => in_next g f (mkIn rights items b)) ⇓ Ok (hd_error items, mkIn rights (tl items) true).
  Proof. intros E; eapply conv_bind; [apply find_even, E|apply conv_eq; reflexivity]. Qed.
  Lemma in_none {W} g (rights : list (option Nd)) (items : list W) b : length rights = length items ->
    (fun f => in_next g f (mkIn (None :: rights) items b)) ⇓ Ok (hd_error items, mkIn rights (tl items) true).
  Proof.
    intros E; destruct items as [|v items].
    - destruct rights; [|discriminate E].
      eapply conv_bind; [apply find_last|cbn beta iota].
      eapply (conv_bind _ _ (fun _ => _)); [apply loop_done, conv_eq; reflexivity|apply conv_eq; reflexivity].
    - eapply conv_bind; [apply find_none; [exact E|discriminate]|apply conv_eq; reflexivity].
  Qed.
  Lemma uin_even (rights : list (option Nd)) (items : list V) b : length rights = length items ->
    (fun f => uin_next gvcb f (mkIn rights items b)) ⇓ Ok (option_map Got (hd_error items), mkIn rights (tl items) true).
  Proof. intros E; eapply conv_bind; [apply find_even, E|apply conv_eq; reflexivity]. Qed.
  Lemma uin_none (rights : list (option Nd)) (items : list V) b : length rights = length items ->
    (fun f => uin_next gvcb f (mkIn (None :: rights) items b)) ⇓ Ok (option_map Got (hd_error items), mkIn rights (tl items) true).
  Proof.
    intros E; destruct items as [|v items].
    - destruct rights; [|discriminate E].
      eapply conv_bind; [apply find_last|cbn beta iota].
      eapply (conv_bind _ _ (fun _ => _)); [apply loop_done, conv_eq; reflexivity|apply conv_eq; reflexivity].
    - eapply conv_bind; [apply find_none; [exact E|discriminate]|apply conv_eq; reflexivity].
  Qed.

  Lemma uin_descend current rights (items : list V) r1 : length rights = length items ->
    (fun f => loop (in_descend_body btot) f (current, rights, map Some items)) ⇓ Ok r1 ->
    exists r2, (fun f => loop (uin_descend_body gvcb) f (current, rights, items)) ⇓ Ok r2 /\
      match r2 with
      | Done (rs, is_) => r1 = (rs, map Some is_) /\ length rs = length is_
      | Raised (rs, is_) => r1 = (None :: rs, None :: map Some is_) /\ length rs = length is_
      end.
  Proof.
    intros E H.
    apply (loop_sim_conv (in_descend_body btot) (uin_descend_body gvcb)
      (fun x y => x = (fst (fst y), snd (fst y), map Some (snd y)) /\ length (snd (fst y)) = length (snd y))
      (fun r1 r2 => match r2 with
        | Done (rs, is_) => r1 = (rs, map Some is_) /\ length rs = length is_
        | Raised (rs, is_) => r1 = (None :: rs, None :: map Some is_) /\ length rs = length is_ end))
      with (s1 := (current, rights, map Some items)) (s2 := (current, rights, items)); [| |split; [reflexivity|exact E]|exact H].
    - intros f g s; reflexivity.
    - clear; intros f s1 [[cur rs] is_] (-> & El); cbn [fst snd] in *; unfold in_descend_body, uin_descend_body, btot.
      destruct cur as [n|].
      + destruct (gvcb n) as [[v [l r]]|]; split; intros x Ex; try discriminate Ex; injection Ex as <-.
        * left; eexists; split; [reflexivity|]; split; [reflexivity|cbn; lia].
        * right; eexists; split; [reflexivity|]; intros [|f'] r1 E; [discriminate E|cbn in E; injection E as <-; auto].
      + split; intros x Ex; try discriminate Ex; injection Ex as <-; eexists; split; [reflexivity|split; [reflexivity|exact El]].
  Qed.

  Lemma hd_tl_lift (items : list V) : hd_error (map Some items) = option_map Some (hd_error items) /\ tl (map Some items) = map Some (tl items).
  Proof. destruct items; split; reflexivity. Qed.

  Lemma uin_tl {W} (rights : list (option Nd)) (items : list W) : length rights = length items ->
    length rights = length (tl items) \/ length rights = S (length (tl items)).
  Proof. intros E; rewrite E; destruct items; [left|right]; reflexivity. Qed.

  Lemma uin_sim s1 s2 o s1' : uin_R s1 s2 -> (fun fu => in_next btot fu s1) ⇓ Ok (o, s1') ->
    exists s2', (fun fu => uin_next gvcb fu s2) ⇓ Ok (option_map got o, s2') /\ uin_R s1' s2'.
  Proof.
    destruct s1 as [r1 i1 b1], s2 as [r2 i2 b2]; intros (Ei & HR) Hn; unfold uin_R in *; cbn [in_items in_right] in *; subst i1.
    assert (Heven : forall o s', Ok (o, s') = Ok (hd_error (map Some i2), mkIn r2 (tl (map Some i2)) true) -> length r2 = length i2 ->
      (fun fu => uin_next gvcb fu (mkIn r2 i2 b2)) ⇓ Ok (option_map got o, mkIn r2 (tl i2) true) /\
      in_items s' = map Some (in_items (mkIn (Nd := Nd) r2 (tl i2) true)) /\ in_right s' = r2).
    { intros o' s' E El; injection E as -> ->; destruct (hd_tl_lift i2) as [-> ->]; split; [|split; reflexivity].
      replace (option_map got (option_map Some (hd_error i2))) with (option_map Got (hd_error i2)) by (destruct i2; reflexivity).
      apply uin_even, El. }
    destruct HR as [(-> & [El|El])|(-> & El)].
    - pose proof (conv_fun _ _ _ Hn (in_even btot r2 (map Some i2) b1 ltac:(rewrite map_length; exact El))) as E.
      destruct (Heven _ _ E El) as (H & H1 & H2); eexists; split; [exact H|split; [exact H1|left; split; [exact H2|apply uin_tl, El]]].
    - destruct r2 as [|[n|] r2]; [discriminate El| |].
      + injection El as El.
        unfold in_next in Hn; cbn [in_right in_items] in Hn.
        apply (conv_bind_inv (fun f => loop in_find_body f (Some n :: r2, map Some i2)) (fun f x => _)) in Hn; [|apply more_flat; intros f g s; reflexivity].
        destruct Hn as (x & Hl & Hk).
        pose proof (conv_fun _ _ _ Hl (find_some n r2 (map Some i2) ltac:(rewrite map_length; exact El))) as Ex; injection Ex as ->; cbn beta iota in Hk.
        apply (conv_bind_inv (fun f => loop (in_descend_body btot) f (Some n, r2, map Some i2)) (fun f x => _)) in Hk; [|apply more_flat; intros f g s; reflexivity].
        destruct Hk as ([rs is_] & Hl' & Hk'); apply conv_const_inv in Hk'; injection Hk' as <- <-.
        destruct (uin_descend _ _ _ _ El Hl') as (x2 & H2 & Hx2).
        assert (Hu : forall o' s', match x2 with Done (rights, items) => (option_map Got (hd_error items), mkIn rights (tl items) true)
                  | Raised (rights, items) => (Some Unwound, mkIn rights items true) end = (o', s') ->
                (fun fu => uin_next gvcb fu (mkIn (Some n :: r2) i2 b2)) ⇓ Ok (o', s')).
        { intros o' s' Eo; eapply conv_bind; [apply find_some; exact El|cbn beta iota; cbn [in_items]].
          eapply (conv_bind _ _ (fun _ => _)); [exact H2|apply conv_eq; intros; rewrite <- Eo; destruct x2 as [[? ?]|[? ?]]; reflexivity]. }
        destruct x2 as [[rs2 is2]|[rs2 is2]]; destruct Hx2 as (Ex & Ell); injection Ex as -> ->.
        * destruct (hd_tl_lift is2) as [-> ->]; eexists; split.
          -- replace (option_map got (option_map Some (hd_error is2))) with (option_map Got (hd_error is2)) by (destruct is2; reflexivity).
             apply Hu; reflexivity.
          -- split; [reflexivity|left; split; [reflexivity|apply uin_tl, Ell]].
        * eexists; split; [apply Hu; reflexivity|]; split; [reflexivity|right; split; [reflexivity|exact Ell]].
      + injection El as El.
        pose proof (conv_fun _ _ _ Hn (in_none btot r2 (map Some i2) b1 ltac:(rewrite map_length; exact El))) as E.
        injection E as -> ->; destruct (hd_tl_lift i2) as [-> ->]; eexists; split.
        * replace (option_map got (option_map Some (hd_error i2))) with (option_map Got (hd_error i2)) by (destruct i2; reflexivity).
          apply uin_none, El.
        * split; [reflexivity|left; split; [reflexivity|apply uin_tl, El]].
    - pose proof (conv_fun _ _ _ Hn (in_none btot r2 (map Some i2) b1 ltac:(rewrite map_length; exact El))) as E.
      destruct (Heven _ _ E El) as (H & H1 & H2); eexists; split; [exact H|split; [exact H1|left; split; [exact H2|apply uin_tl, El]]].
  Qed.

  (** ** With context *)
  Local Notation C := (option Nd * option Nd)%type.
  Definition got_ctx (c : tree_context (option V) C) : outcome (tree_context V C) :=
    match last (c_ancestors c) None with
    | Some _ => Got (mkCtx (c_path c) (flat_map opt_list (c_ancestors c)) (c_children c))
    | None => Unwound
    end.

  Lemma seen_ctx p : got_ctx (context_at btot p) = seen_context gvcb p.
  Proof.
    unfold got_ctx, context_at, seen_context; cbn [c_ancestors c_path c_children]; unfold ancestors_at.
    assert (Hv : forall ms, flat_map opt_list (map (nval btot) ms) = values gvcb ms).
    { induction ms as [|m ms IH]; cbn; [reflexivity|]; rewrite IH; unfold nval, btot; destruct (gvcb m) as [[? ?]|]; reflexivity. }
    rewrite Hv, map_app; cbn [map]; rewrite last_last; unfold nval, nkids, btot.
    destruct (gvcb (pos_here p)) as [[v c]|] eqn:E; reflexivity.
  Qed.

  Definition lifted (ch : option C) (s : inc Nd V) : inc Nd (option V) :=
    mkInc (ic_right s) (ic_path s) (map Some (ic_anc s)) ch (ic_conts s) (ic_status s).
  Definition winv (s : inc Nd V) : Prop := length (ic_path s) = pred (length (ic_status s)).
  Definition uinc_R (s1 : inc Nd (option V)) (s2 : inc Nd V) : Prop :=
    winv s2 /\ exists ch, s1 = lifted ch s2 \/
      s1 = mkInc (None :: ic_right s2) (push_segment (ic_status s2) (ic_path s2)) (None :: map Some (ic_anc s2)) ch (ic_conts s2)
             (ReturnedSelf :: ic_status s2).

  Lemma push_tl s : winv s -> tl (push_segment (ic_status s) (ic_path s)) = ic_path s.
  Proof.
    unfold winv; destruct (ic_status s) as [|[| |] st]; cbn; try reflexivity.
    destruct (ic_path s); [reflexivity|discriminate].
  Qed.

  Definition find_Q (r1 : found (Nd := Nd) (inc Nd (option V))) (r2 : found (Nd := Nd) (inc Nd V)) : Prop :=
    match r1, r2 with
    | Return a, Return b => winv b /\ (exists ch, a = lifted ch b) /\ (ic_anc b = [] \/ ic_children a = ic_children b)
    | Descend n a, Descend m b => n = m /\ winv b /\ exists ch, a = lifted ch b
    | _, _ => False
    end.

  Lemma uinc_find s1 s2 r1 : uinc_R s1 s2 -> (fun f => loop inc_find_body f s1) ⇓ Ok r1 ->
    exists r2, (fun f => loop inc_find_body f s2) ⇓ Ok r2 /\ find_Q r1 r2.
  Proof.
    intros (Hw & ch & HR) H.
    assert (H1 : exists ch', (fun f => loop inc_find_body f (lifted ch' s2)) ⇓ Ok r1).
    { destruct HR as [-> | ->]; [exists ch; exact H|].
      eapply loop_inv_step in H; [|intros f; reflexivity].
      eapply loop_inv_step in H; [|intros f; reflexivity].
      cbn [ic_right ic_path ic_anc ic_children ic_conts tl] in H; rewrite (push_tl _ Hw) in H.
      exists ch; exact H. }
    clear HR H; destruct H1 as (ch' & H).
    apply (loop_sim_conv inc_find_body inc_find_body (fun a b => winv b /\ exists ch, a = lifted ch b) find_Q)
      with (s1 := lifted ch' s2) (s2 := s2); [| |split; [exact Hw|exists ch'; reflexivity]|exact H].
    - intros f g s; reflexivity.
    - clear; intros f s1 [ri pa an chi co st] (Hw & ch & ->); unfold inc_find_body, lifted, winv in *;
        cbn [ic_right ic_path ic_anc ic_children ic_conts ic_status] in *.
      destruct st as [|[| |] st].
      + destruct ri as [|[n|] ri]; split; intros x Ex; try discriminate Ex; injection Ex as <-.
        * eexists; split; [reflexivity|]; cbn; unfold winv; cbn; split; [exact Hw|split; [exists ch; reflexivity|left; reflexivity]].
        * eexists; split; [reflexivity|]; cbn; unfold winv; cbn; split; [reflexivity|split; [exact Hw|exists ch; reflexivity]].
        * left; eexists; split; [reflexivity|]; cbn; split; [exact Hw|exists ch; reflexivity].
      + destruct co as [|c co]; split; intros x Ex; try discriminate Ex; injection Ex as <-.
        eexists; split; [reflexivity|]; cbn; unfold winv; cbn; split; [exact Hw|split; [exists (Some c); reflexivity|right; reflexivity]].
      + destruct ri as [|[n|] ri]; split; intros x Ex; try discriminate Ex; injection Ex as <-.
        * eexists; split; [reflexivity|]; cbn; unfold winv; cbn; split; [exact Hw|split; [exists ch; reflexivity|left; reflexivity]].
        * eexists; split; [reflexivity|]; cbn; unfold winv; cbn; split; [reflexivity|split; [exact Hw|exists ch; reflexivity]].
        * left; eexists; split; [reflexivity|]; cbn; split; [exact Hw|exists ch; reflexivity].
      + split; intros x Ex; try discriminate Ex; injection Ex as <-.
        left; eexists; split; [reflexivity|]; cbn; split; [|exists ch; rewrite map_tl; reflexivity].
        cbn in Hw; destruct pa; cbn in *; lia.
  Qed.

  Definition desc_Q (r1 : inc Nd (option V)) (r2 : ran (inc Nd V)) : Prop :=
    match r2 with
    | Done b => winv b /\ exists ch, r1 = lifted ch b
    | Raised b => winv b /\ exists ch, r1 =
        mkInc (None :: ic_right b) (push_segment (ic_status b) (ic_path b)) (None :: map Some (ic_anc b)) ch
          ((None, None) :: ic_conts b) (WentLeft :: ic_status b)
    end.

  Lemma uinc_descend cur ch s r1 : winv s ->
    (fun f => loop (inc_descend_body btot) f (cur, lifted ch s)) ⇓ Ok r1 ->
    exists r2, (fun f => loop (uinc_descend_body gvcb) f (cur, s)) ⇓ Ok r2 /\ desc_Q r1 r2.
  Proof.
    intros Hw H.
    apply (loop_sim_conv (inc_descend_body btot) (uinc_descend_body gvcb)
      (fun x y => fst x = fst y /\ winv (snd y) /\ exists ch, snd x = lifted ch (snd y)) desc_Q)
      with (s1 := (cur, lifted ch s)) (s2 := (cur, s)); [| |split; [reflexivity|split; [exact Hw|exists ch; reflexivity]]|exact H].
    - intros f g x; reflexivity.
    - clear; intros f [cur' s1] [cur [ri pa an chi co st]] (E & Hw & ch & E'); cbn [fst snd] in *; subst cur' s1.
      unfold inc_descend_body, uinc_descend_body, btot, lifted, winv in *; cbn [ic_right ic_path ic_anc ic_children ic_conts ic_status] in *.
      assert (Hp : length (push_segment st pa) = length st).
      { destruct st as [|[| |] st]; cbn in *; lia. }
      destruct cur as [n|].
      + destruct (gvcb n) as [[v [l r]]|]; split; intros x Ex; try discriminate Ex; injection Ex as <-.
        * left; eexists; split; [reflexivity|]; cbn; split; [reflexivity|split; [exact Hp|exists ch; reflexivity]].
        * right; eexists; split; [reflexivity|]; intros [|f'] r1 E; [discriminate E|cbn in E; injection E as <-].
          cbn; split; [exact Hw|exists ch; reflexivity].
      + split; intros x Ex; try discriminate Ex; injection Ex as <-; eexists; split; [reflexivity|].
        cbn; split; [exact Hw|exists ch; reflexivity].
  Qed.

  Lemma get_lift ch (s : inc Nd V) : (ic_anc s = [] \/ ch = ic_children s) -> option_map got_ctx (inc_get (lifted ch s)) = option_map Got (inc_get s).
  Proof.
    unfold inc_get, lifted; cbn [ic_anc ic_path ic_children]; destruct (ic_anc s) as [|v l]; [reflexivity|intros [E| ->]; [discriminate E|]].
    pose proof (got_slice_some v l) as Eg; unfold got_slice in Eg.
    cbn [map option_map]; unfold got_ctx; cbn [c_ancestors c_path c_children].
    set (x := rev (Some v :: map Some l)) in *.
    destruct (last x None); [injection Eg as ->; reflexivity|discriminate Eg].
  Qed.

  Lemma flat_inc_find {W} : flat_body (@inc_find_body Nd W).
  Proof. intros f g s; reflexivity. Qed.

  Lemma uinc_sim s1 s2 o s1' : uinc_R s1 s2 -> (fun fu => inc_next btot fu s1) ⇓ Ok (o, s1') ->
    exists s2', (fun fu => uinc_next gvcb fu s2) ⇓ Ok (option_map got_ctx o, s2') /\ uinc_R s1' s2'.
  Proof.
    intros HR Hn; unfold inc_next, uinc_next, inc_advance, uinc_advance in *.
    apply (conv_bind_inv _ (fun _ => _)) in Hn.
    2: { apply more_bind; [apply more_flat, flat_inc_find|intros [s|n s]; [apply more_const|]].
         apply more_bind; [apply more_flat; intros f g x; reflexivity|intros x].
         apply (more_bind _ (fun _ => _)); [apply more_const|intros y; destruct (ic_conts x); apply more_const]. }
    destruct Hn as (sx & Hn & Hk); apply conv_const_inv in Hk; injection Hk as <- <-.
    apply (conv_bind_inv (fun f => loop inc_find_body f s1) (fun f x => _)) in Hn; [|apply more_flat, flat_inc_find].
    destruct Hn as (r1 & Hl & Hk).
    destruct (uinc_find _ _ _ HR Hl) as (r2 & Hl2 & HQ).
    assert (Hgo : forall r, (fun f => match r2 with
        | Return s' => Ok (Done s')
        | Descend n s' => r <- loop (uinc_descend_body gvcb) f (Some n, s') ;;
            match r with
            | Done s'' => st <- set_returned (ic_status s'') ;;
                match ic_conts s'' with [] => Panic | c :: conts => Ok (Done (mkInc (ic_right s'') (ic_path s'') (ic_anc s'') (Some c) conts st)) end
            | Raised s'' => Ok (Raised s'') end end) ⇓ Ok r ->
      (fun fu => r0 <- (r1 <- loop inc_find_body fu s2;; match r1 with
        | Return s' => Ok (Done s')
        | Descend n s' => r <- loop (uinc_descend_body gvcb) fu (Some n, s') ;;
            match r with
            | Done s'' => st <- set_returned (ic_status s'') ;;
                match ic_conts s'' with [] => Panic | c :: conts => Ok (Done (mkInc (ic_right s'') (ic_path s'') (ic_anc s'') (Some c) conts st)) end
            | Raised s'' => Ok (Raised s'') end end);; Ok (observe inc_get r0)) ⇓ Ok (observe inc_get r)).
    { intros r Hr; eapply (conv_bind _ _ (fun _ => _)); [|apply conv_eq; reflexivity]; eapply conv_bind; [exact Hl2|exact Hr]. }
    destruct r1 as [a|n a], r2 as [b|m b]; try contradiction HQ; cbn [find_Q] in HQ.
    - destruct HQ as (Hw & (ch & ->) & Hch); apply conv_const_inv in Hk; injection Hk as <-.
      exists b; split; [rewrite get_lift by exact Hch; apply (Hgo (Done b)), conv_eq; reflexivity|].
      split; [exact Hw|exists ch; left; reflexivity].
    - destruct HQ as (<- & Hw & ch & ->); cbn beta iota in Hk.
      apply (conv_bind_inv (fun f => loop (inc_descend_body btot) f (Some n, lifted ch b)) (fun f x => _)) in Hk;
        [|apply more_flat; intros f g x; reflexivity].
      destruct Hk as (y & Hd & Hk); cbn beta iota in Hk.
      destruct (uinc_descend _ _ _ _ Hw Hd) as (y2 & Hd2 & HQ).
      destruct y2 as [y2|y2]; destruct HQ as (Hw2 & ch2 & ->); apply conv_const_inv in Hk.
      + unfold lifted in Hk; cbn [ic_status ic_conts ic_right ic_path ic_anc] in Hk.
        destruct (ic_status y2) as [|t st] eqn:Es; [discriminate Hk|].
        destruct (ic_conts y2) as [|c conts] eqn:Ec; [discriminate Hk|]; cbn [set_returned bindR] in Hk; injection Hk as <-.
        set (b' := mkInc (ic_right y2) (ic_path y2) (ic_anc y2) (Some c) conts (ReturnedSelf :: st)).
        exists b'; split.
        * change (mkInc (ic_right y2) (ic_path y2) (map Some (ic_anc y2)) (Some c) conts (ReturnedSelf :: st)) with (lifted (ic_children b') b').
          rewrite get_lift by (right; reflexivity).
          apply (Hgo (Done b')); eapply (conv_bind _ _ (fun _ => _)); [exact Hd2|apply conv_eq; intros; rewrite Es, Ec; reflexivity].
        * split; [unfold winv in *; cbn; rewrite Es in Hw2; exact Hw2|exists (Some c); left; reflexivity].
      + cbn [ic_status ic_conts ic_right ic_path ic_anc set_returned bindR] in Hk; injection Hk as <-.
        exists y2; split; [|split; [exact Hw2|eexists; right; reflexivity]].
        replace (option_map got_ctx _) with (Some (@Unwound (tree_context V C))).
        * apply (Hgo (Raised y2)); eapply (conv_bind _ _ (fun _ => _)); [exact Hd2|apply conv_eq; reflexivity].
        * unfold inc_get; cbn [ic_anc ic_path ic_children option_map]; unfold got_ctx; cbn [c_ancestors rev]; rewrite last_last; reflexivity.
  Qed.

  (** ** With ancestors: the iterator with context, without its paths and containers. *)
  Definition strip_inc (s : inc Nd V) : ina Nd V := mkIna (ic_right s) (ic_anc s) (ic_status s).
  Definition anc_of (o : outcome (tree_context V C)) : outcome (list V) :=
    match o with Got c => Got (c_ancestors c) | Unwound => Unwound end.

  Lemma uina_sim s1 s2 o s1' : s2 = strip_inc s1 -> (fun fu => uinc_next gvcb fu s1) ⇓ Ok (o, s1') ->
    exists s2', (fun fu => uina_next gvcb fu s2) ⇓ Ok (option_map anc_of o, s2') /\ s2' = strip_inc s1'.
  Proof.
    intros -> Hn; unfold uina_next, uinc_next, uina_advance, uinc_advance in *.
    apply (conv_bind_inv _ (fun _ => _)) in Hn.
    2: { apply more_bind; [apply more_flat, flat_inc_find|intros [s|n s]; [apply more_const|]].
         apply (more_bind _ (fun _ => _)); [apply more_flat; intros f g x; reflexivity|intros [x|x]; [|apply more_const]].
         apply (more_bind _ (fun _ => _)); [apply more_const|intros y; destruct (ic_conts x); apply more_const]. }
    destruct Hn as (rx & Hn & Hk); apply conv_const_inv in Hk; injection Hk as Eobs.
    assert (Eo : o = fst (observe inc_get rx) /\ s1' = snd (observe inc_get rx)) by (rewrite Eobs; auto); clear Eobs; destruct Eo as [-> ->].
    apply (conv_bind_inv (fun f => loop inc_find_body f s1) (fun f x => _)) in Hn; [|apply more_flat, flat_inc_find].
    destruct Hn as (r1 & Hl & Hk).
    assert (Hf : (fun f => loop ina_find_body f (strip_inc s1)) ⇓
      Ok (match r1 with Return s => Return (strip_inc s) | Descend n s => Descend n (strip_inc s) end)).
    { destruct (loop_sim_conv inc_find_body ina_find_body (fun a b => b = strip_inc a)
        (fun x y => y = match x with Return s => Return (strip_inc s) | Descend n s => Descend n (strip_inc s) end))
        with (s1 := s1) (s2 := strip_inc s1) (r1 := r1) as (r2 & Hr & ->); [| |reflexivity|exact Hl|exact Hr].
      - intros f g s; reflexivity.
      - clear; intros f [ri pa an chi co st] s2 ->; unfold inc_find_body, ina_find_body, strip_inc;
          cbn [ic_right ic_path ic_anc ic_children ic_conts ic_status ia_right ia_items ia_status].
        destruct st as [|[| |] st]; [destruct ri as [|[n|] ri]|destruct co as [|c co]|destruct ri as [|[n|] ri]|];
          split; intros x Ex; try discriminate Ex; injection Ex as <-; try (left; eexists; split; reflexivity); eexists; split; reflexivity. }
    assert (Hgo : exists r, rx = r /\ (fun fu => r1 <- loop ina_find_body fu (strip_inc s1);; match r1 with
        | Return s' => Ok (Done s')
        | Descend n s' => r <- loop (uina_descend_body gvcb) fu (Some n, s') ;;
            match r with
            | Done s'' => st <- set_returned (ia_status s'') ;; Ok (Done (mkIna (ia_right s'') (ia_items s'') st))
            | Raised s'' => Ok (Raised s'') end end) ⇓ Ok (match r with Done s => Done (strip_inc s) | Raised s => Raised (strip_inc s) end)).
    { exists rx; split; [reflexivity|]; eapply conv_bind; [exact Hf|].
      destruct r1 as [a|n a]; cbn beta iota in *; [apply conv_const_inv in Hk; injection Hk as <-; apply conv_eq; reflexivity|].
      apply (conv_bind_inv (fun f => loop (uinc_descend_body gvcb) f (Some n, a)) (fun _ => _)) in Hk; [|apply more_flat; intros f g x; reflexivity].
      destruct Hk as (y & Hd & Hk); apply conv_const_inv in Hk.
      assert (Hd2 : (fun f => loop (uina_descend_body gvcb) f (Some n, strip_inc a)) ⇓ Ok (match y with Done s => Done (strip_inc s) | Raised s => Raised (strip_inc s) end)).
      { destruct (loop_sim_conv (uinc_descend_body gvcb) (uina_descend_body gvcb) (fun x y => y = (fst x, strip_inc (snd x)))
          (fun x y => y = match x with Done s => Done (strip_inc s) | Raised s => Raised (strip_inc s) end))
          with (s1 := (Some n, a)) (s2 := (Some n, strip_inc a)) (r1 := y) as (r2 & Hr & ->); [| |reflexivity|exact Hd|exact Hr].
        - intros f g s; reflexivity.
        - clear; intros f [cur s] s2 ->; unfold uinc_descend_body, uina_descend_body; cbn [fst snd].
          destruct cur as [n|]; [destruct (gvcb n) as [[v [l r]]|]|]; split; intros x Ex; try discriminate Ex; injection Ex as <-;
            try (left; eexists; split; reflexivity); eexists; split; reflexivity. }
      eapply (conv_bind _ _ (fun _ => _)); [exact Hd2|apply conv_eq; intros _].
      destruct y as [y|y]; [|injection Hk as <-; reflexivity].
      unfold strip_inc at 1; cbn [ia_status].
      destruct (ic_status y) as [|t st]; [discriminate Hk|]; cbn [set_returned bindR] in *.
      destruct (ic_conts y); [discriminate Hk|injection Hk as <-; reflexivity]. }
    destruct Hgo as (r & -> & Hr).
    exists (snd (observe ina_get (match r with Done s => Done (strip_inc s) | Raised s => Raised (strip_inc s) end))); split.
    - eapply (conv_bind _ _ (fun _ => _)); [exact Hr|apply conv_eq; intros _].
      destruct r as [s|s]; cbn [observe fst snd]; [|reflexivity].
      unfold ina_get, inc_get, strip_inc; cbn; destruct (ic_anc s); reflexivity.
    - destruct r; reflexivity.
  Qed.
End UIn.
