(** * Proofs for the inorder iterators with ancestors and with context. *)
From Verif Require Import Prelim PrelimFacts Spec SpecFacts ModelNode NodeFacts ModelIn Slots ProofsPlain ProofsPre ProofsPost.

Section InCtx.
  Context {Nd V : Type} (gvcb : Nd -> V * (option Nd * option Nd)) (bt : Nd -> btree Nd) (P0 : list nat).
  Hypothesis Hbt : node_btree gvcb bt.
  Local Notation value := (nval gvcb).

  (** Positions below a node, in order. *)
  Definition IN (p : list nat) (ab : list Nd) (n : Nd) : list (pos Nd) := inorder (bannotate p ab (bt n)).
  Definition INo (p : list nat) (ab : list Nd) (o : option Nd) : list (pos Nd) :=
    match o with Some n => IN p ab n | None => [] end.

  Lemma IN_unfold p ab n : IN p ab n =
    INo (p ++ [0]) (ab ++ [n]) (nleft gvcb n) ++ mkPos p ab n :: INo (p ++ [1]) (ab ++ [n]) (nright gvcb n).
  Proof.
    unfold IN at 1; rewrite (bt_unfold _ _ Hbt); cbn [bannotate inorder].
    destruct (nleft gvcb n), (nright gvcb n); reflexivity.
  Qed.

  Definition ifr : Type := (Nd * status)%type.
  Definition seg (st : status) : nat := match st with WentRight => 1 | _ => 0 end.
  (** The path of a node entered below these frames (last segment first). *)
  Fixpoint cpath (fs : list ifr) : list nat :=
    match fs with [] => rev P0 | (_, st) :: fs' => seg st :: cpath fs' end.
  Definition npath (fs : list ifr) : list nat := match fs with [] => rev P0 | _ :: fs' => cpath fs' end.
  Definition irights (fs : list ifr) : list (option Nd) :=
    flat_map (fun '(n, st) => match st with WentRight => [] | _ => [nright gvcb n] end) fs.
  Definition iconts (fs : list ifr) : list (option Nd * option Nd) :=
    flat_map (fun '(n, st) => match st with WentLeft => [nkids gvcb n] | _ => [] end) fs.

  Fixpoint iout (fs : list ifr) : list (pos Nd) :=
    match fs with
    | [] => []
    | (n, st) :: fs' =>
        let here := mkPos (rev (cpath fs')) (rev (map fst fs')) n in
        let right := INo (rev (cpath fs') ++ [1]) (rev (map fst fs') ++ [n]) (nright gvcb n) in
        match st with
        | WentLeft => here :: right
        | ReturnedSelf => right
        | WentRight => []
        end ++ iout fs'
    end.

  Definition irep (fs : list ifr) (path : list N) ch : inc Nd V :=
    mkInc (irights fs) path (map value (map fst fs)) ch (iconts fs) (map snd fs).
  Definition path_ok (fs : list ifr) (path : list N) : Prop := fs <> [] -> path = map N.of_nat (npath fs).

  (** Only the top frame may be in state [ReturnedSelf]. *)
  Definition open (fs : list ifr) : Prop := Forall (fun '(_, st) => st <> ReturnedSelf) fs.

  Lemma inc_find fs : open (tl fs) -> forall path ch, path_ok fs path ->
    (iout fs = [] /\ exists path' ch', (fun f => loop (@inc_find_body Nd V) f (irep fs path ch)) ⇓
        Ok (Return (irep [] path' ch'))) \/
    (exists n fs', open fs' /\ iout fs = mkPos (rev (cpath fs')) (rev (map fst fs')) n :: iout ((n, ReturnedSelf) :: fs') /\
      (fun f => loop (@inc_find_body Nd V) f (irep fs path ch)) ⇓
        Ok (Return (irep ((n, ReturnedSelf) :: fs') (map N.of_nat (cpath fs')) (Some (nkids gvcb n))))) \/
    (exists c fs', open fs' /\ fs' <> [] /\ iout fs = IN (rev (cpath fs')) (rev (map fst fs')) c ++ iout fs' /\
      (fun f => loop (@inc_find_body Nd V) f (irep fs path ch)) ⇓
        Ok (Descend c (irep fs' (map N.of_nat (npath fs')) ch))).
  Proof.
    induction fs as [|[n st] fs IH]; intros Hop path ch Hp.
    - left; split; [reflexivity|]; exists path, ch; apply loop_done; now_conv.
    - cbn [tl] in Hop; pose proof (Hp ltac:(discriminate)) as ->; clear Hp; cbn [npath].
      assert (Hop' : open (tl fs)) by (destruct fs; [constructor|inversion Hop; assumption]).
      assert (HpathW : path_ok fs (tl (map N.of_nat (cpath fs)))).
      { intros Hne; destruct fs as [|[m st'] fs']; [congruence|reflexivity]. }
      assert (HWR : (iout fs = [] /\ exists path' ch', (fun f => loop (@inc_find_body Nd V) f (irep ((n, WentRight) :: fs) (map N.of_nat (cpath fs)) ch)) ⇓
        Ok (Return (irep [] path' ch'))) \/
    (exists m fs', open fs' /\ iout fs = mkPos (rev (cpath fs')) (rev (map fst fs')) m :: iout ((m, ReturnedSelf) :: fs') /\
      (fun f => loop (@inc_find_body Nd V) f (irep ((n, WentRight) :: fs) (map N.of_nat (cpath fs)) ch)) ⇓
        Ok (Return (irep ((m, ReturnedSelf) :: fs') (map N.of_nat (cpath fs')) (Some (nkids gvcb m))))) \/
    (exists c fs', open fs' /\ fs' <> [] /\ iout fs = IN (rev (cpath fs')) (rev (map fst fs')) c ++ iout fs' /\
      (fun f => loop (@inc_find_body Nd V) f (irep ((n, WentRight) :: fs) (map N.of_nat (cpath fs)) ch)) ⇓
        Ok (Descend c (irep fs' (map N.of_nat (npath fs')) ch)))).
      { destruct (IH Hop' (tl (map N.of_nat (cpath fs))) ch HpathW) as
          [[E (path' & ch' & Hl)]|[(m & fs' & H1 & E & Hl)|(c & fs' & H1 & H2 & E & Hl)]].
        - left; split; [exact E|]; exists path', ch'; eapply loop_step; [now_conv|exact Hl].
        - right; left; exists m, fs'; repeat split; auto; eapply loop_step; [now_conv|exact Hl].
        - right; right; exists c, fs'; repeat split; auto; eapply loop_step; [now_conv|exact Hl]. }
      destruct st.
      + (* WentLeft *)
        right; left; exists n, fs; repeat split; [exact Hop|].
        apply loop_done; now_conv.
      + (* ReturnedSelf *)
        cbn [iout].
        destruct (nright gvcb n) as [c|] eqn:Er.
        * right; right; exists c, ((n, WentRight) :: fs); repeat split.
          -- constructor; [discriminate|exact Hop].
          -- discriminate.
          -- apply loop_done, conv_eq; intros f; unfold inc_find_body, irep, irights; cbn; rewrite Er; reflexivity.
        * cbn [INo app].
          assert (Hstep : forall r, (fun f => loop (@inc_find_body Nd V) f (irep ((n, WentRight) :: fs) (map N.of_nat (cpath fs)) ch)) ⇓ r ->
             (fun f => loop (@inc_find_body Nd V) f (irep ((n, ReturnedSelf) :: fs) (map N.of_nat (cpath fs)) ch)) ⇓ r).
          { intros r Hr; eapply loop_step; [|exact Hr].
            apply conv_eq; intros f; unfold inc_find_body, irep, irights; cbn; rewrite Er; reflexivity. }
          destruct HWR as [[E (path' & ch' & Hl)]|[(m & fs' & H1 & E & Hl)|(c & fs' & H1 & H2 & E & Hl)]].
          -- left; split; [exact E|]; exists path', ch'; apply Hstep; exact Hl.
          -- right; left; exists m, fs'; repeat split; auto.
          -- right; right; exists c, fs'; repeat split; auto.
      + exact HWR.
  Qed.

  Lemma inc_descend c : forall fs ch, open fs ->
    exists m fs', open fs' /\
      (fun f => loop (inc_descend_body gvcb) f (Some c, irep fs (map N.of_nat (npath fs)) ch)) ⇓
        Ok (irep ((m, WentLeft) :: fs') (map N.of_nat (cpath fs')) ch) /\
      IN (rev (cpath fs)) (rev (map fst fs)) c ++ iout fs =
        mkPos (rev (cpath fs')) (rev (map fst fs')) m :: iout ((m, ReturnedSelf) :: fs').
  Proof.
    induction c as [c IH _] using (bnode_ind gvcb bt Hbt); intros fs ch Hop.
    assert (Hb : forall f, inc_descend_body gvcb f (Some c, irep fs (map N.of_nat (npath fs)) ch) =
      Ok (inl (nleft gvcb c, irep ((c, WentLeft) :: fs) (map N.of_nat (npath ((c, WentLeft) :: fs))) ch))).
    { intros f; unfold inc_descend_body, irep; rewrite (gvcb_eq gvcb c).
      cbn [ic_right ic_path ic_anc ic_children ic_conts ic_status irights iconts flat_map app map fst snd npath].
      rewrite nkids_pair.
      destruct fs as [|[m st] fs']; [reflexivity|].
      destruct st; reflexivity. }
    rewrite IN_unfold.
    destruct (nleft gvcb c) as [l|] eqn:El.
    - cbn [OForall] in IH; destruct (IH ((c, WentLeft) :: fs) ch) as (m & fs' & H1 & Hl & E).
      { constructor; [discriminate|exact Hop]. }
      exists m, fs'; split; [exact H1|split].
      + eapply loop_step; [apply conv_eq; exact Hb|]; exact Hl.
      + rewrite <- E; cbn [cpath seg iout map fst rev INo]; rewrite <- app_assoc; reflexivity.
    - exists c, fs; split; [exact Hop|split].
      + eapply loop_step; [apply conv_eq; exact Hb|]; apply loop_done; now_conv.
      + reflexivity.
  Qed.

  Definition inc_R (s : inc Nd V) (l : list (tree_context V (option Nd * option Nd))) : Prop :=
    (exists n, s = inc_new n (map N.of_nat P0) /\ l = map (context_at gvcb) (IN P0 [] n)) \/
    (exists fs path ch, open (tl fs) /\ path_ok fs path /\ s = irep fs path ch /\ l = map (context_at gvcb) (iout fs)).

  Lemma inc_get_at n st fs : 
    inc_get (irep ((n, st) :: fs) (map N.of_nat (cpath fs)) (Some (nkids gvcb n))) =
    Some (context_at gvcb (mkPos (rev (cpath fs)) (rev (map fst fs)) n)).
  Proof.
    unfold inc_get, irep, context_at; cbn [ic_anc ic_path ic_children map fst pos_path pos_above pos_here].
    rewrite map_app, !map_rev; reflexivity.
  Qed.

  Lemma inc_after_descend m fs ch (k : nat -> Res (inc Nd V)) :
    k ⇓ Ok (irep ((m, WentLeft) :: fs) (map N.of_nat (cpath fs)) ch) ->
    (fun f => bindR (bindR (k f) (fun s'' =>
        st <- set_returned (ic_status s'') ;;
        match ic_conts s'' with
        | [] => Panic
        | c :: conts => Ok (mkInc (ic_right s'') (ic_path s'') (ic_anc s'') (Some c) conts st)
        end)) (fun s' => Ok (inc_get s', s'))) ⇓
    Ok (Some (context_at gvcb (mkPos (rev (cpath fs)) (rev (map fst fs)) m)),
        irep ((m, ReturnedSelf) :: fs) (map N.of_nat (cpath fs)) (Some (nkids gvcb m))).
  Proof.
    intros Hk; eapply conv_bind; [eapply conv_bind; [exact Hk|]|].
    - apply conv_eq; intros f; reflexivity.
    - apply conv_eq; intros f.
      exact (f_equal (fun o => Ok (o, _)) (inc_get_at m ReturnedSelf fs)).
  Qed.

  Lemma inc_step : step_inv (inc_next gvcb) inc_R.
  Proof.
    intros s l [(n & -> & ->)|(fs & path & ch & Hop & Hp & -> & ->)].
    - destruct (inc_descend n [] None ltac:(constructor)) as (m & fs' & H1 & Hl & E).
      cbn [cpath rev map] in E; rewrite rev_involutive in E; cbn [iout] in E; rewrite app_nil_r in E.
      exists (irep ((m, ReturnedSelf) :: fs') (map N.of_nat (cpath fs')) (Some (nkids gvcb m))).
      rewrite E; split.
      + unfold inc_next, inc_advance.
        eapply conv_ext; [|exact (inc_after_descend m fs' None _ Hl)].
        intros f; unfold inc_new, irep; cbn [npath]; rewrite map_rev.
        destruct f; reflexivity.
      + right; eexists _, _, _; split; [|split; [|split; reflexivity]]; [exact H1|intros _; reflexivity].
    - destruct (inc_find fs Hop path ch Hp) as
          [[E (path' & ch' & Hl)]|[(m & fs' & H1 & E & Hl)|(c & fs' & H1 & H2 & E & Hl)]].
      + exists (irep [] path' ch'); rewrite E; split.
        * unfold inc_next, inc_advance; eapply conv_bind; [eapply conv_bind; [exact Hl|now_conv]|now_conv].
        * right; exists [], path', ch'; repeat split; [constructor|intros ?; congruence].
      + exists (irep ((m, ReturnedSelf) :: fs') (map N.of_nat (cpath fs')) (Some (nkids gvcb m))).
        rewrite E; split.
        * unfold inc_next, inc_advance; eapply conv_bind; [eapply conv_bind; [exact Hl|now_conv]|].
          rewrite inc_get_at; now_conv.
        * right; eexists _, _, _; split; [|split; [|split; reflexivity]]; [exact H1|intros _; reflexivity].
      + destruct (inc_descend c fs' ch H1) as (m & fs2 & H3 & Hl2 & E2).
        exists (irep ((m, ReturnedSelf) :: fs2) (map N.of_nat (cpath fs2)) (Some (nkids gvcb m))).
        rewrite E, E2; split.
        * destruct Hl as [F HF].
          destruct (inc_after_descend m fs2 ch _ Hl2) as [G HG].
          exists (F + G); intros f Hf; unfold inc_next, inc_advance.
          rewrite HF by lia; exact (HG f ltac:(lia)).
        * right; eexists _, _, _; split; [|split; [|split; reflexivity]]; [exact H3|intros _; reflexivity].
  Qed.

  Lemma inc_yields n : yields (inc_next gvcb) (inc_new n (map N.of_nat P0))
    (map (context_at gvcb) (inorder (bannotate P0 [] (bt n)))).
  Proof. apply (step_inv_yields _ _ inc_step); left; exists n; split; reflexivity. Qed.
End InCtx.

(** ** The other two machines are projections of this one *)
Section Projections.
  Context {Nd V : Type} (gvcb : Nd -> V * (option Nd * option Nd)).

  Definition forget_inc (s : inc Nd V) : inco Nd V := mkInco (ic_right s) (ic_path s) (ic_anc s) (ic_status s).
  Definition anc_inc (s : inc Nd V) : ina Nd V := mkIna (ic_right s) (ic_anc s) (ic_status s).
  Definition found_map {S T} (g : S -> T) (x : found (Nd:=Nd) S) : found (Nd:=Nd) T :=
    match x with Return s => Return (g s) | Descend n s => Descend n (g s) end.
  Definition snd_map {A S T} (g : S -> T) (x : A * S) : A * T := (fst x, g (snd x)).

  Lemma inco_find_sim f s x : @inc_find_body Nd V f s = Ok x ->
    @inco_find_body Nd V f (forget_inc s) = Ok (sum_map forget_inc (found_map forget_inc) x).
  Proof.
    destruct s as [r p a ch co [|[] st]]; cbn.
    - destruct r as [|[n|] r]; intros E; injection E as <-; reflexivity.
    - destruct co; intros E; [discriminate|]; injection E as <-; reflexivity.
    - destruct r as [|[n|] r]; intros E; injection E as <-; reflexivity.
    - intros E; injection E as <-; reflexivity.
  Qed.

  Lemma ina_find_sim f s x : @inc_find_body Nd V f s = Ok x ->
    @ina_find_body Nd V f (anc_inc s) = Ok (sum_map anc_inc (found_map anc_inc) x).
  Proof.
    destruct s as [r p a ch co [|[] st]]; cbn.
    - destruct r as [|[n|] r]; intros E; injection E as <-; reflexivity.
    - destruct co; intros E; [discriminate|]; injection E as <-; reflexivity.
    - destruct r as [|[n|] r]; intros E; injection E as <-; reflexivity.
    - intros E; injection E as <-; reflexivity.
  Qed.

  Lemma inco_descend_sim f s x : inc_descend_body gvcb f s = Ok x ->
    inco_descend_body gvcb f (snd_map forget_inc s) = Ok (sum_map (snd_map forget_inc) forget_inc x).
  Proof.
    destruct s as [[n|] [r p a ch co st]]; cbn.
    - destruct (gvcb n) as [v [l r']]; intros E; injection E as <-; reflexivity.
    - intros E; injection E as <-; reflexivity.
  Qed.

  Lemma ina_descend_sim f s x : inc_descend_body gvcb f s = Ok x ->
    ina_descend_body gvcb f (snd_map anc_inc s) = Ok (sum_map (snd_map anc_inc) anc_inc x).
  Proof.
    destruct s as [[n|] [r p a ch co st]]; cbn.
    - destruct (gvcb n) as [v [l r']]; intros E; injection E as <-; reflexivity.
    - intros E; injection E as <-; reflexivity.
  Qed.

  Lemma inco_next_sim f s o s' : inc_next gvcb f s = Ok (o, s') ->
    inco_next gvcb f (forget_inc s) = Ok (option_map no_children o, forget_inc s').
  Proof.
    unfold inc_next, inco_next, inc_advance, inco_advance.
    destruct (loop inc_find_body f s) as [r| | |] eqn:El; cbn [bindR]; try discriminate.
    rewrite (loop_sim_ok _ _ _ _ inco_find_sim f _ _ El); cbn [bindR].
    destruct r as [s1|n s1]; cbn [found_map].
    - cbn [bindR]; intros E; injection E as <- <-; destruct s1 as [? ? [|] ? ? ?]; reflexivity.
    - destruct (loop (inc_descend_body gvcb) f (Some n, s1)) as [s2| | |] eqn:Ed; cbn [bindR]; try discriminate.
      pose proof (loop_sim_ok _ _ _ _ inco_descend_sim f _ _ Ed) as Hd; unfold snd_map in Hd; cbn [fst snd] in Hd.
      rewrite Hd; cbn [bindR forget_inc io_status].
      destruct (set_returned (ic_status s2)); cbn [bindR]; try discriminate.
      destruct (ic_conts s2); cbn [bindR]; try discriminate.
      intros E; injection E as <- <-; destruct s2 as [? ? [|] ? ? ?]; reflexivity.
  Qed.

  Lemma ina_next_sim f s o s' : inc_next gvcb f s = Ok (o, s') ->
    ina_next gvcb f (anc_inc s) = Ok (option_map c_ancestors o, anc_inc s').
  Proof.
    unfold inc_next, ina_next, inc_advance, ina_advance.
    destruct (loop inc_find_body f s) as [r| | |] eqn:El; cbn [bindR]; try discriminate.
    rewrite (loop_sim_ok _ _ _ _ ina_find_sim f _ _ El); cbn [bindR].
    destruct r as [s1|n s1]; cbn [found_map].
    - cbn [bindR]; intros E; injection E as <- <-; destruct s1 as [? ? [|] ? ? ?]; reflexivity.
    - destruct (loop (inc_descend_body gvcb) f (Some n, s1)) as [s2| | |] eqn:Ed; cbn [bindR]; try discriminate.
      pose proof (loop_sim_ok _ _ _ _ ina_descend_sim f _ _ Ed) as Hd; unfold snd_map in Hd; cbn [fst snd] in Hd.
      rewrite Hd; cbn [bindR anc_inc ia_status].
      destruct (set_returned (ic_status s2)); cbn [bindR]; try discriminate.
      destruct (ic_conts s2); cbn [bindR]; try discriminate.
      intros E; injection E as <- <-; destruct s2 as [? ? [|] ? ? ?]; reflexivity.
  Qed.

  Lemma inco_yields bt P0 n : node_btree gvcb bt ->
    yields (inco_next gvcb) (inco_new n (map N.of_nat P0))
      (map no_children (map (context_at gvcb) (inorder (bannotate P0 [] (bt n))))).
  Proof.
    intros H; exact (yields_sim_ok forget_inc no_children _ _ inco_next_sim _ _ (inc_yields gvcb bt P0 H n)).
  Qed.

  Lemma ina_yields bt n : node_btree gvcb bt ->
    yields (ina_next gvcb) (ina_new n) (map (ancestors_at gvcb) (inorder (bpositions (bt n)))).
  Proof.
    intros H.
    pose proof (yields_sim_ok anc_inc c_ancestors _ _ ina_next_sim _ _ (inc_yields gvcb bt [] H n)) as Hy.
    rewrite map_map in Hy; exact Hy.
  Qed.
End Projections.
