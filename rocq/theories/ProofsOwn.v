(** * ProofsOwn: the postorder context iterator over containers that own memory. *)
From Coq Require Import Permutation.
From Verif Require Import Prelim PrelimFacts Spec SpecFacts SpecObs ModelNode ModelPre ModelPost ModelBfs ModelOwn.
From Verif Require Import NodeFacts ProofsPost.

Lemma is_freed_in h m : is_freed h m = true <-> In m (h_freed h).
Proof.
  unfold is_freed; rewrite existsb_exists; split.
  - intros (x & Hi & E); apply Nat.eqb_eq in E; subst; exact Hi.
  - intros Hi; exists m; split; [exact Hi|apply Nat.eqb_refl].
Qed.
Lemma is_freed_not h m : ~ In m (h_freed h) -> is_freed h m = false.
Proof. intros H; destruct (is_freed h m) eqn:E; [|reflexivity]; apply is_freed_in in E; tauto. Qed.

Section Post.
  Context {Nd V : Type}.
  Variable gvc : Nd -> V * list Nd.
  Variable owns : Nd -> bool.

  (** The same nodes, each being its own value. *)
  Definition gvcn (n : Nd) : Nd * list Nd := (n, nkids gvc n).

  Definition owned (c : cont Nd) : bool := match ct_mem c with Some _ => true | None => false end.
  Definition owned_opt (o : option (cont Nd)) : bool := match o with Some c => owned c | None => false end.
  Definition mems (l : list (cont Nd)) : list nat := flat_map (fun c => match ct_mem c with Some m => [m] | None => [] end) l.

  (** The heap and the open containers. *)
  Definition heap_ok (h : heap) (l : list (cont Nd)) : Prop :=
    NoDup (mems l) /\ (forall m, In m (mems l) -> ~ In m (h_freed h) /\ m < h_next h) /\ (forall m, In m (h_freed h) -> m < h_next h).

  Lemma take_node_spec h n l : heap_ok h l ->
    exists h' c, take_node gvc owns h n = (h', nval gvc n, c) /\ ct_items c = nkids gvc n /\ owned c = owns n /\
      heap_ok h' (c :: l) /\ h_freed h' = h_freed h.
  Proof.
    intros (Hn & Hl & Hf); unfold take_node; rewrite (gv_eq gvc n); destruct (owns n) eqn:E.
    - do 2 eexists; split; [reflexivity|]; split; [reflexivity|]; split; [reflexivity|]; split; [|reflexivity].
      split; [|split].
      + cbn; constructor; [|exact Hn]; intros Hi; apply Hl in Hi; lia.
      + intros m; cbn; intros [<-|Hi]; [split; [|lia]; intros Hi; apply Hf in Hi; lia|]; apply Hl in Hi; split; [tauto|lia].
      + intros m Hi; apply Hf in Hi; cbn; lia.
    - do 2 eexists; split; [reflexivity|]; split; [reflexivity|]; split; [reflexivity|]; split; [|reflexivity].
      split; [|split]; assumption.
  Qed.

  (** The loop. *)
  Definition same_mem (c d : cont Nd) : Prop := ct_mem c = ct_mem d.
  Record Rl (st : op_loop_st (Nd:=Nd) (V:=V)) (o : pt_loop_st (V:=Nd) Nd (list Nd)) : Prop := mkRl {
    rl_stack : map (@ct_items Nd) (snd (fst (fst (fst st)))) = fst (fst (fst o));
    rl_conts : map (@ct_items Nd) (snd (fst (fst st))) = snd (fst (fst o));
    rl_path : snd (fst st) = snd (fst o);
    rl_anc : snd st = map (nval gvc) (snd o);
    rl_mem : Forall2 same_mem (snd (fst (fst (fst st)))) (snd (fst (fst st)));
    rl_own : Forall2 (fun c n => owned c = owns n) (snd (fst (fst st))) (snd o);
    rl_heap : heap_ok (fst (fst (fst (fst st)))) (snd (fst (fst st)))
  }.

  Lemma mems_same l l' : Forall2 same_mem l l' -> mems l = mems l'.
  Proof. induction 1 as [|c d l l' E _ IH]; [reflexivity|]; unfold mems in *; cbn; rewrite E, IH; reflexivity. Qed.

  Lemma read_ok h l c : heap_ok h l -> In c l -> read h c = Ok (ct_items c).
  Proof.
    intros (_ & Hl & _) Hi; unfold read; destruct (ct_mem c) as [m|] eqn:E; [|reflexivity].
    rewrite is_freed_not; [reflexivity|]; apply Hl; unfold mems; apply in_flat_map; exists c; rewrite E; cbn; auto.
  Qed.
  Lemma read_ok_same h l c d : heap_ok h l -> In d l -> same_mem c d -> read h c = Ok (ct_items c).
  Proof.
    intros (_ & Hl & _) Hi E; unfold read; destruct (ct_mem c) as [m|] eqn:Em; [|reflexivity].
    rewrite is_freed_not; [reflexivity|]; apply Hl; unfold mems; apply in_flat_map; exists d; rewrite <- E, Em; cbn; auto.
  Qed.

  Lemma body_sim old f st o r : Rl st o -> snd o <> [] -> postc_body gvcn f o = Ok r ->
    match r with
    | inl o' => snd o' <> [] /\ exists st', opost_body gvc owns old f st = Ok (inl st') /\ Rl st' o' /\
        h_freed (fst (fst (fst (fst st')))) = h_freed (fst (fst (fst (fst st)))) /\ exists l, snd o' = l ++ snd o
    | inr (o', c') =>
        snd o' = snd o /\
        match release_opt (fst (fst (fst (fst st)))) old with
        | Ok h1 =>
            forall (Hh : (forall m, In m (h_freed h1) -> In m (h_freed (fst (fst (fst (fst st))))) ) /\ h_next h1 = h_next (fst (fst (fst (fst st))))),
            exists st' c, opost_body gvc owns old f st = Ok (inr (st', c)) /\ ct_items c = c' /\
              map (@ct_items Nd) (snd (fst (fst (fst st')))) = fst (fst (fst o')) /\
              map (@ct_items Nd) (snd (fst (fst st'))) = snd (fst (fst o')) /\
              snd (fst st') = snd (fst o') /\ snd st' = map (nval gvc) (snd o') /\
              Forall2 same_mem (snd (fst (fst (fst st')))) (snd (fst (fst st'))) /\
              Forall2 (fun c n => owned c = owns n) (c :: snd (fst (fst st'))) (snd o') /\
              heap_ok (fst (fst (fst (fst st')))) (snd (fst (fst st'))) /\
              (forall m, ct_mem c = Some m -> In m (h_freed (fst (fst (fst (fst st'))))))
        | UB => opost_body gvc owns old f st = UB
        | _ => True
        end
    end.
  Proof.
    destruct st as [[[[h stack] conts] path] anc], o as [[[ostack oconts] opath] oanc].
    intros [Hst Hco Hpa Han Hme How Hhe] Hne; cbn [fst snd] in *; subst path anc ostack oconts.
    destruct stack as [|top rest].
    - inversion Hme; subst; inversion How; subst; cbn in Hne; congruence.
    - inversion Hme as [|? c ? conts' Etop Hme' E1 E2]; subst; clear Hme.
      inversion How as [|? n0 ? oanc' Eown How' E1 E2]; subst; clear How.
      unfold postc_body, opost_body; cbn [map]; unfold iter_next.
      rewrite (read_ok_same h (c :: conts') top c Hhe (or_introl eq_refl) Etop); cbn [bindR].
      destruct (ct_items top) as [|n items'] eqn:Et.
      + cbn [bindR]; intros [= <-]; split; [reflexivity|].
        destruct (release_opt h old) as [h1| | |] eqn:Er; [|exact I|reflexivity|exact I].
        intros [Hf Hx]; cbn [bindR hd_error tl]; destruct Hhe as (Hn & Hl & Hfr).
        unfold release_opt, release.
        destruct (ct_mem top) as [m|] eqn:Em.
        * pose proof Etop as Emc; unfold same_mem in Emc; rewrite Em in Emc; symmetry in Emc.
          cbn in Hn; rewrite Emc in Hn; cbn in Hn; apply NoDup_cons_iff in Hn; destruct Hn as [Hn0 Hn].
          assert (Hm : In m (mems (c :: conts'))) by (cbn; rewrite Emc; cbn; auto).
          rewrite is_freed_not by (intros Hi; apply Hf in Hi; revert Hi; apply Hl, Hm); cbn [bindR].
          do 2 eexists; split; [reflexivity|]; cbn [fst snd]; repeat (split; [first [reflexivity|assumption|constructor; assumption]|]).
          split; [|intros m' Hm'; rewrite Emc in Hm'; injection Hm' as <-; cbn; auto].
          split; [exact Hn|]; split.
          -- intros m' Hi; cbn; assert (Hi' : In m' (mems (c :: conts'))) by (cbn; apply in_or_app; right; exact Hi).
             apply Hl in Hi'; rewrite Hx; split; [|tauto]; intros [<-|Hi'']; [contradiction|apply Hf in Hi''; tauto].
          -- intros m'; cbn; rewrite Hx; intros [<-|Hi]; [apply Hl, Hm|apply Hfr, Hf, Hi].
        * pose proof Etop as Emc; unfold same_mem in Emc; rewrite Em in Emc; symmetry in Emc.
          cbn [bindR]; do 2 eexists; split; [reflexivity|]; cbn [fst snd]; repeat (split; [first [reflexivity|assumption|constructor; assumption]|]).
          cbn in Hn; rewrite Emc in Hn; cbn in Hn.
          assert (Hl' : forall m, In m (mems conts') -> ~ In m (h_freed h) /\ m < h_next h) by (intros m Hi; apply Hl; cbn; rewrite Emc; exact Hi).
          split; [|intros m' Hm'; rewrite Emc in Hm'; discriminate].
          split; [exact Hn|]; split.
          -- intros m' Hi; apply Hl' in Hi; rewrite Hx; split; [|tauto]; intros Hi'; apply Hf in Hi'; tauto.
          -- intros m' Hi; rewrite Hx; apply Hfr, Hf, Hi.
      + cbn [bindR]; unfold incr_last; destruct opath as [|p path']; [discriminate|]; cbn [bindR gvcn].
        intros [= <-]; split; [discriminate|].
        destruct (take_node_spec h n (c :: conts') Hhe) as (h' & k & E & Ei & Ek & Hh' & Hfe); rewrite E.
        eexists; split; [reflexivity|]; cbn [fst snd tl]; split; [|split; [exact Hfe|exists [n]; reflexivity]].
        constructor; cbn [fst snd map ct_items]; try rewrite Ei; try reflexivity.
        * constructor; [reflexivity|]; constructor; [exact Etop|exact Hme'].
        * constructor; [exact Ek|]; constructor; assumption.
        * exact Hh'.
  Qed.

  (** The children of the context before have been released already (with their iterator). *)
  Definition old_ok (h : heap) (old : option (cont Nd)) : Prop :=
    forall c m, old = Some c -> ct_mem c = Some m -> In m (h_freed h).
  Lemma release_old h old : old_ok h old -> release_opt h old = if owned_opt old then UB else Ok h.
  Proof.
    intros H; destruct old as [c|]; [|reflexivity]; cbn; unfold release, owned.
    destruct (ct_mem c) as [m|] eqn:E; [|reflexivity].
    rewrite (proj2 (is_freed_in h m) (H c m eq_refl E)); reflexivity.
  Qed.

  Record Fin (st : op_loop_st (Nd:=Nd) (V:=V)) (c : cont Nd) (o : pt_loop_st (V:=Nd) Nd (list Nd)) (c' : list Nd) : Prop := mkFin {
    fn_c : ct_items c = c';
    fn_stack : map (@ct_items Nd) (snd (fst (fst (fst st)))) = fst (fst (fst o));
    fn_conts : map (@ct_items Nd) (snd (fst (fst st))) = snd (fst (fst o));
    fn_path : snd (fst st) = snd (fst o);
    fn_anc : snd st = map (nval gvc) (snd o);
    fn_mem : Forall2 same_mem (snd (fst (fst (fst st)))) (snd (fst (fst st)));
    fn_own : Forall2 (fun c n => owned c = owns n) (c :: snd (fst (fst st))) (snd o);
    fn_heap : heap_ok (fst (fst (fst (fst st)))) (snd (fst (fst st)));
    fn_old : old_ok (fst (fst (fst (fst st)))) (Some c)
  }.

  Lemma loop_sim old f : forall st o o' c', Rl st o -> snd o <> [] -> old_ok (fst (fst (fst (fst st)))) old ->
    loop (postc_body gvcn) f o = Ok (o', c') ->
    (exists l, snd o' = l ++ snd o) /\
    if owned_opt old then loop (opost_body gvc owns old) f st = UB
    else exists st' c, loop (opost_body gvc owns old) f st = Ok (st', c) /\ Fin st' c o' c'.
  Proof.
    induction f as [|f IH]; intros st o o' c' HR Hne Ho; [discriminate|].
    cbn [loop]; destruct (postc_body gvcn f o) as [r| | |] eqn:Eb; try discriminate.
    pose proof (body_sim old f st o r HR Hne Eb) as HB; destruct r as [o1|[o1 c1]].
    - destruct HB as (Hne1 & st1 & E & HR1 & Hf & l1 & El1); rewrite E; intros Hl.
      destruct (IH st1 o1 o' c' HR1 Hne1) as ((l & El) & Hrest); [unfold old_ok; rewrite Hf; exact Ho|exact Hl|].
      split; [|exact Hrest]; exists (l ++ l1); rewrite El, El1, app_assoc; reflexivity.
    - intros [= <- <-]; destruct HB as (Ea & HB); split; [exists []; rewrite Ea; reflexivity|].
      rewrite (release_old _ _ Ho) in HB; destruct (owned_opt old).
      + rewrite HB; reflexivity.
      + destruct HB as (st' & c & E & H1 & H2 & H3 & H4 & H5 & H6 & H7 & H8 & H9); [split; [auto|reflexivity]|].
        rewrite E; exists st', c; split; [reflexivity|]; constructor; try assumption.
        intros c0 m [= <-]; apply H9.
  Qed.

  (** ** The state *)
  Record Rs (s : opost Nd V) (o : postc Nd Nd Nd (list Nd)) : Prop := mkRs {
    rs_root : op_root s = pt_root o;
    rs_stack : map (@ct_items Nd) (op_stack s) = pt_stack o;
    rs_conts : map (@ct_items Nd) (op_conts s) = pt_conts o;
    rs_path : op_path s = pt_path o;
    rs_anc : op_anc s = map (nval gvc) (pt_anc o);
    rs_children : option_map (@ct_items Nd) (op_children s) = pt_children o;
    rs_mem : Forall2 same_mem (op_stack s) (op_conts s);
    rs_heap : heap_ok (op_heap s) (op_conts s);
    rs_old : old_ok (op_heap s) (op_children s);
    rs_open : match pt_anc o with
              | [] => op_conts s = [] /\ (pt_root o <> None -> op_children s = None)
              | _ => pt_root o = None /\ exists c, op_children s = Some c /\ Forall2 (fun c n => owned c = owns n) (c :: op_conts s) (pt_anc o)
              end
  }.

  Definition hot (s : opost Nd V) : bool := existsb owned (op_conts s) || owned_opt (op_children s).

  Lemma own_exists l ns : Forall2 (fun c n => owned c = owns n) l ns -> existsb owned l = existsb owns ns.
  Proof. induction 1 as [|c n l ns E _ IH]; [reflexivity|cbn; rewrite E, IH; reflexivity]. Qed.

  Definition advn : nat -> postc Nd Nd Nd (list Nd) -> Res (postc Nd Nd Nd (list Nd)) :=
    postc_advance_with gvcn (fun l => l) (postc_body gvcn).

  Lemma advance_sim f s o o' : Rs s o -> advn f o = Ok o' ->
    match pt_anc o' with
    | [] => exists s', opost_advance gvc owns f s = Ok s' /\ Rs s' o' /\ hot s' = hot s /\ op_children s' = op_children s
    | _ =>
        if owned_opt (op_children s) then opost_advance gvc owns f s = UB
        else exists s', opost_advance gvc owns f s = Ok s' /\ Rs s' o' /\
               hot s' = existsb owns (pt_anc o') /\ (hot s = true -> hot s' = true)
    end.
  Proof.
    destruct s as [h root stack conts path anc ch], o as [oroot ostack oconts opath oanc och].
    intros HR; destruct HR as [H1 H2 H3 H4 H5 H6 H7 H8 H9 H10].
    cbn [op_heap op_root op_stack op_conts op_path op_anc op_children pt_root pt_stack pt_conts pt_path pt_anc pt_children] in *.
    subst root ostack oconts path anc och.
    unfold advn, postc_advance_with, opost_advance;
      cbn [op_heap op_root op_stack op_conts op_path op_anc op_children pt_root pt_stack pt_conts pt_path pt_anc pt_children].
    assert (Hcore : forall st o1 o2 c2 h0, Rl st o1 -> snd o1 <> [] -> old_ok (fst (fst (fst (fst st)))) ch -> h0 = fst (fst (fst (fst st))) ->
      (existsb owned conts = true -> existsb owns (snd o1) = true) ->
      loop (postc_body gvcn) f o1 = Ok (o2, c2) ->
      let oz := mkPostc None (fst (fst (fst o2))) (snd (fst (fst o2))) (snd (fst o2)) (snd o2) (Some c2) in
      match snd o2 with
      | [] => False
      | _ => if owned_opt ch then loop (opost_body gvc owns ch) f st = UB
             else exists st' c, loop (opost_body gvc owns ch) f st = Ok (st', c) /\
               let s' := mkOpost (fst (fst (fst (fst st')))) None (snd (fst (fst (fst st')))) (snd (fst (fst st'))) (snd (fst st')) (snd st') (Some c) in
               Rs s' oz /\ hot s' = existsb owns (snd o2) /\ (existsb owned conts = true -> hot s' = true)
      end).
    { intros st o1 o2 c2 h0 HRl Hne Ho -> Himp Hl oz.
      destruct (loop_sim ch f st o1 o2 c2 HRl Hne Ho Hl) as ((l & El) & Hrest).
      destruct (snd o2) as [|a0 r0] eqn:E2.
      - destruct (snd o1) as [|x y]; [congruence|]; destruct l; discriminate El.
      - destruct (owned_opt ch); [exact Hrest|].
        destruct Hrest as (st' & c & E & HF); exists st', c; split; [exact E|]; cbv zeta.
        destruct HF as [F1 F2 F3 F4 F5 F6 F7 F8 F9].
        assert (Hhot : hot (mkOpost (fst (fst (fst (fst st')))) None (snd (fst (fst (fst st')))) (snd (fst (fst st'))) (snd (fst st')) (snd st') (Some c))
                       = existsb owns (a0 :: r0)).
        { unfold hot; cbn [op_conts op_children owned_opt]; rewrite E2 in F7; rewrite <- (own_exists _ _ F7); cbn [existsb]; apply orb_comm. }
        split; [|split; [exact Hhot|]].
        + constructor; unfold oz; cbn [op_heap op_root op_stack op_conts op_path op_anc op_children pt_root pt_stack pt_conts pt_path pt_anc pt_children];
            try assumption; try reflexivity.
          * rewrite <- E2; exact F5.
          * cbn; rewrite F1; reflexivity.
          * split; [reflexivity|]; exists c; split; [reflexivity|]; rewrite E2 in F7; exact F7.
        + intros Hc; rewrite Hhot, El, existsb_app, (Himp Hc), orb_true_r; reflexivity. }
    destruct oroot as [root|].
    - destruct oanc as [|a oanc]; [|destruct H10 as [H10 _]; discriminate].
      destruct H10 as [-> Hch]; rewrite Hch in * by discriminate; inversion H7; subst stack; clear H7.
      cbn [gvcn map].
      destruct (take_node_spec h root [] H8) as (h' & k & E & Ei & Ek & Hh' & Hfe); rewrite E.
      destruct (loop (postc_body gvcn) f _) as [[[[[os oc] op] oa] c2]| | |] eqn:El; try discriminate; cbn [bindR].
      intros [= <-]; cbn [pt_anc].
      specialize (Hcore (h', [k], [k], usize_max :: opath, [nval gvc root]) ([nkids gvc root], [nkids gvc root], usize_max :: opath, [root]) _ _ _
        ltac:(constructor; cbn [fst snd map]; [rewrite Ei; reflexivity|rewrite Ei; reflexivity|reflexivity|reflexivity
          |constructor; [reflexivity|constructor]|constructor; [exact Ek|constructor]|exact Hh']) ltac:(discriminate)
        ltac:(intros ? ? [=]) eq_refl ltac:(discriminate) El); cbn [fst snd] in Hcore.
      destruct oa as [|a0 oa]; [contradiction|]; cbn [owned_opt] in *.
      destruct Hcore as (st' & c & E' & HRs & Hh & _); rewrite E'; cbn [bindR].
      destruct st' as [[[[h2 s2] c3] p2] a2]; cbn [fst snd] in *.
      eexists; split; [reflexivity|]; split; [exact HRs|]; split; [exact Hh|discriminate].
    - destruct oanc as [|a [|b oanc]]; cbn [map tl].
      + intros [= <-]; cbn [pt_anc]; eexists; split; [reflexivity|]; split; [|split; reflexivity].
        constructor; cbn [op_heap op_root op_stack op_conts op_path op_anc op_children pt_root pt_stack pt_conts pt_path pt_anc pt_children]; auto.
      + intros [= <-]; cbn [pt_anc]; eexists; split; [reflexivity|]; split; [|split; reflexivity].
        destruct H10 as (_ & c & -> & HF); inversion HF as [|? ? ? ? ? HF']; subst; inversion HF'; subst.
        constructor; cbn [op_heap op_root op_stack op_conts op_path op_anc op_children pt_root pt_stack pt_conts pt_path pt_anc pt_children]; auto.
        split; [reflexivity|congruence].
      + destruct H10 as (_ & c & Ec & HF).
        destruct (loop (postc_body gvcn) f _) as [[[[[os oc] op] oa] c2]| | |] eqn:El; try discriminate; cbn [bindR].
        intros [= <-]; cbn [pt_anc].
        assert (HF' : Forall2 (fun c n => owned c = owns n) conts (b :: oanc)) by (inversion HF; assumption).
        specialize (Hcore (h, stack, conts, opath, nval gvc b :: map (nval gvc) oanc) (map (@ct_items Nd) stack, map (@ct_items Nd) conts, opath, b :: oanc) _ _ _
          ltac:(constructor; cbn [fst snd map]; auto; reflexivity) ltac:(discriminate) H9 eq_refl
          ltac:(cbn [fst snd]; rewrite (own_exists _ _ HF'); auto) El); cbn [fst snd] in Hcore.
        destruct oa as [|a0 oa]; [contradiction|]; cbn [op_children] in *.
        destruct (owned_opt ch) eqn:Eo.
        * rewrite Hcore; reflexivity.
        * destruct Hcore as (st' & c0 & E' & HRs & Hh & Hi); rewrite E'; cbn [bindR].
          destruct st' as [[[[h2 s2] c3] p2] a2]; cbn [fst snd] in *.
          eexists; split; [reflexivity|]; split; [exact HRs|]; split; [exact Hh|].
          unfold hot at 1; cbn [op_conts op_children]; rewrite Eo, orb_false_r; exact Hi.
  Qed.

  (** ** Calls *)
  Definition owns_here (c : tree_context Nd (list Nd)) : bool :=
    match rev (c_ancestors c) with n :: _ => owns n | [] => false end.
  Definition seen (outs : list (option (tree_context Nd (list Nd)))) : list Nd :=
    flat_map (fun o => match o with Some c => c_ancestors c | None => [] end) outs.
  Fixpoint hit (prev : bool) (outs : list (option (tree_context Nd (list Nd)))) : bool :=
    match outs with
    | [] => false
    | None :: r => hit prev r
    | Some c :: r => prev || hit (owns_here c) r
    end.
  Definition plain (c : tree_context Nd (list Nd)) : tree_context V unit := mkCtx (c_path c) (map (nval gvc) (c_ancestors c)) None.
  Definition full (c : tree_context Nd (list Nd)) : tree_context V (list Nd) := mkCtx (c_path c) (map (nval gvc) (c_ancestors c)) (c_children c).

  Lemma get_sim s o : Rs s o -> opost_get s = option_map plain (postc_get o).
  Proof.
    intros HR; unfold opost_get, postc_get; rewrite (rs_anc _ _ HR), (rs_path _ _ HR).
    destruct (pt_anc o) as [|a l]; [reflexivity|]; cbn [map option_map]; unfold plain; cbn [c_path c_ancestors].
    rewrite map_rev; reflexivity.
  Qed.
  Lemma here_sim s o c : Rs s o -> postc_get o = Some c -> owned_opt (op_children s) = owns_here c.
  Proof.
    intros HR; pose proof (rs_open _ _ HR) as H; unfold postc_get, owns_here.
    destruct (pt_anc o) as [|a l]; [discriminate|]; intros [= <-]; cbn [c_ancestors].
    change (rev l ++ [a]) with (rev (a :: l)); rewrite rev_involutive.
    destruct H as (_ & c & -> & HF); inversion HF; subst; assumption.
  Qed.

  Lemma get_some (o : postc Nd Nd Nd (list Nd)) a l : pt_anc o = a :: l -> postc_get o = Some (mkCtx (rev (pt_path o)) (rev (a :: l)) (pt_children o)).
  Proof. intros E; unfold postc_get; rewrite E; reflexivity. Qed.
  Lemma existsb_rev {A} (p : A -> bool) l : existsb p (rev l) = existsb p l.
  Proof. induction l as [|a l IH]; [reflexivity|]; cbn [rev existsb]; rewrite existsb_app, IH; cbn; rewrite orb_false_r; apply orb_comm. Qed.

  Lemma calls_sim_next f k : forall s o outs o', Rs s o -> calls (postc_next gvcn) k o f = Ok (outs, o') ->
    if hit (owned_opt (op_children s)) outs then calls (opost_next gvc owns) k s f = UB
    else exists s', calls (opost_next gvc owns) k s f = Ok (map (option_map plain) outs, s') /\ Rs s' o' /\
           hot s' = (hot s || existsb owns (seen outs))%bool.
  Proof.
    induction k as [|k IH]; intros s o outs o' HR; cbn [calls].
    - intros [= <- <-]; cbn; exists s; split; [reflexivity|]; split; [exact HR|rewrite orb_false_r; reflexivity].
    - unfold postc_next at 1; fold advn.
      destruct (advn f o) as [o1| | |] eqn:Ea; cbn [bindR]; try discriminate.
      destruct (calls (postc_next gvcn) k o1 f) as [[os o2]| | |] eqn:Ec; cbn [bindR]; try discriminate.
      intros [= <- <-]; pose proof (advance_sim f s o o1 HR Ea) as HA.
      unfold opost_next at 1 3.
      destruct (pt_anc o1) as [|a l] eqn:E1.
      + destruct HA as (s1 & E & HR1 & Hh1 & Ech); rewrite E; cbn [bindR].
        specialize (IH s1 o1 os o2 HR1 Ec); rewrite (get_sim s1 o1 HR1).
        assert (Eg : postc_get o1 = None) by (unfold postc_get; rewrite E1; reflexivity).
        rewrite Eg; cbn [hit option_map]; rewrite Ech in IH.
        destruct (hit (owned_opt (op_children s)) os).
        * rewrite IH; reflexivity.
        * destruct IH as (s' & E' & HR' & Hh); rewrite E'; cbn [bindR].
          exists s'; split; [reflexivity|]; split; [exact HR'|]; cbn [seen flat_map app]; rewrite <- Hh1; exact Hh.
      + rewrite (get_some o1 a l E1); cbn [hit].
        destruct (owned_opt (op_children s)) eqn:Eo; cbn [orb].
        * rewrite HA; reflexivity.
        * destruct HA as (s1 & E & HR1 & Hh1 & Hi); rewrite E; cbn [bindR].
          specialize (IH s1 o1 os o2 HR1 Ec); rewrite (get_sim s1 o1 HR1), (get_some o1 a l E1).
          rewrite (here_sim s1 o1 _ HR1 (get_some o1 a l E1)) in IH.
          destruct (hit _ os).
          -- rewrite IH; reflexivity.
          -- destruct IH as (s' & E' & HR' & Hh); rewrite E'; cbn [bindR].
             exists s'; split; [reflexivity|]; split; [exact HR'|]; rewrite Hh; cbn [seen flat_map c_ancestors].
             rewrite existsb_app, existsb_rev, Hh1; destruct (hot s); [rewrite <- Hh1, (Hi eq_refl); reflexivity|reflexivity].
  Qed.

  (** A caller who reads the children. *)
  Lemma calls_sim_reading f k : forall s o outs o', Rs s o -> owned_opt (op_children s) = false ->
    calls (postc_next gvcn) k o f = Ok (outs, o') ->
    if existsb (fun x => match x with Some c => owns_here c | None => false end) outs
    then calls (opost_next_reading gvc owns) k s f = UB
    else exists s', calls (opost_next_reading gvc owns) k s f = Ok (map (option_map full) outs, s') /\ Rs s' o'.
  Proof.
    induction k as [|k IH]; intros s o outs o' HR Hu; cbn [calls].
    - intros [= <- <-]; cbn; exists s; split; [reflexivity|exact HR].
    - unfold postc_next at 1; fold advn.
      destruct (advn f o) as [o1| | |] eqn:Ea; cbn [bindR]; try discriminate.
      destruct (calls (postc_next gvcn) k o1 f) as [[os o2]| | |] eqn:Ec; cbn [bindR]; try discriminate.
      intros [= <- <-]; pose proof (advance_sim f s o o1 HR Ea) as HA.
      unfold opost_next_reading at 1 3.
      destruct (pt_anc o1) as [|a l] eqn:E1.
      + destruct HA as (s1 & E & HR1 & Hh1 & Ech); rewrite E; cbn [bindR].
        specialize (IH s1 o1 os o2 HR1 ltac:(rewrite Ech; exact Hu) Ec).
        assert (Eg : postc_get o1 = None) by (unfold postc_get; rewrite E1; reflexivity).
        rewrite Eg; cbn [existsb map option_map orb]; rewrite (rs_anc _ _ HR1), E1; cbn [map bindR].
        destruct (existsb _ os).
        * rewrite IH; reflexivity.
        * destruct IH as (s' & E' & HR'); rewrite E'; cbn [bindR].
          exists s'; split; [reflexivity|exact HR'].
      + rewrite Hu in HA; rewrite (get_some o1 a l E1); cbn [existsb].
        destruct HA as (s1 & E & HR1 & Hh1 & Hi); rewrite E; cbn [bindR].
        rewrite <- (here_sim s1 o1 _ HR1 (get_some o1 a l E1)).
        pose proof (rs_open _ _ HR1) as Hop; rewrite E1 in Hop; destruct Hop as (_ & c & Hc & HF).
        rewrite (rs_anc _ _ HR1), E1; cbn [map]; rewrite Hc; cbn [unwrap bindR owned_opt]; unfold read, owned.
        pose proof (rs_old _ _ HR1) as Hold; rewrite Hc in Hold.
        destruct (ct_mem c) as [m|] eqn:Em; cbn [orb].
        * rewrite (proj2 (is_freed_in _ m) (Hold c m eq_refl Em)); reflexivity.
        * cbn [bindR]; specialize (IH s1 o1 os o2 HR1 ltac:(rewrite Hc; cbn; unfold owned; rewrite Em; reflexivity) Ec).
          destruct (existsb _ os).
          -- rewrite IH; reflexivity.
          -- destruct IH as (s' & E' & HR'); rewrite E'; cbn [bindR].
             exists s'; split; [|exact HR'].
             unfold full; cbn [option_map c_path c_ancestors c_children]; rewrite (rs_path _ _ HR1), <- (rs_children _ _ HR1), Hc.
             cbn [option_map]; change (nval gvc a :: map (nval gvc) l) with (map (nval gvc) (a :: l)); rewrite <- map_rev; reflexivity.
  Qed.

  (** ** Dropping the iterator *)
  Lemma release_all_unowned l : forall h, existsb owned l = false -> release_all h l = Ok h.
  Proof.
    induction l as [|c l IH]; intros h; [reflexivity|]; cbn [existsb release_all]; unfold release, owned at 1.
    destruct (ct_mem c); [discriminate|]; cbn [orb bindR]; apply IH.
  Qed.
  Lemma release_all_fresh l : forall h, NoDup (mems l) -> (forall m, In m (mems l) -> ~ In m (h_freed h)) ->
    exists h', release_all h l = Ok h' /\ h_next h' = h_next h /\ forall m, In m (h_freed h') <-> In m (mems l) \/ In m (h_freed h).
  Proof.
    induction l as [|c l IH]; intros h Hn Hd; [exists h; cbn; split; [reflexivity|split; [reflexivity|tauto]]|].
    cbn [release_all]; unfold release; cbn in Hn, Hd; destruct (ct_mem c) as [m|] eqn:E.
    - rewrite is_freed_not by (apply Hd; cbn; auto); cbn [bindR].
      cbn in Hn; apply NoDup_cons_iff in Hn; destruct Hn as [Hm Hn].
      destruct (IH (mkHeap (h_next h) (m :: h_freed h)) Hn) as (h' & E' & Hx & Hf).
      + intros m' Hi; cbn; intros [<-|Hi']; [contradiction|]; apply (Hd m'); cbn; auto.
      + exists h'; split; [exact E'|]; split; [exact Hx|]; intros m'; rewrite Hf; cbn; rewrite E; cbn; tauto.
    - cbn [bindR]; destruct (IH h Hn Hd) as (h' & E' & Hx & Hf); exists h'; split; [exact E'|]; split; [exact Hx|].
      intros m'; rewrite Hf; cbn; rewrite E; reflexivity.
  Qed.
  Lemma release_all_again l : forall h, existsb owned l = true -> (forall m, In m (mems l) -> In m (h_freed h)) -> release_all h l = UB.
  Proof.
    induction l as [|c l IH]; intros h He Hf; [discriminate|]; cbn [release_all]; unfold release; cbn in He; unfold owned at 1 in He.
    destruct (ct_mem c) as [m|] eqn:E.
    - rewrite (proj2 (is_freed_in h m)); [reflexivity|]; apply Hf; cbn; rewrite E; cbn; auto.
    - cbn [bindR]; apply IH; [exact He|]; intros m Hi; apply Hf; cbn; rewrite E; exact Hi.
  Qed.
  Lemma mems_rev l m : In m (mems (rev l)) <-> In m (mems l).
  Proof. unfold mems; rewrite !in_flat_map; split; intros (c & Hc & Hm); exists c; (split; [|exact Hm]); apply in_rev; [|rewrite rev_involutive]; assumption. Qed.
  Lemma mems_rev_perm l : Permutation (mems (rev l)) (mems l).
  Proof. unfold mems; apply Permutation_flat_map; symmetry; apply Permutation_rev. Qed.
  Lemma owned_same l l' : Forall2 same_mem l l' -> existsb owned l = existsb owned l'.
  Proof. induction 1 as [|c d l l' E _ IH]; [reflexivity|]; cbn; rewrite IH; unfold owned, same_mem in *; rewrite E; reflexivity. Qed.

  Lemma drop_sim s o : Rs s o -> opost_drop s = if hot s then UB else Ok (op_heap s).
  Proof.
    intros HR; unfold opost_drop, hot; destruct (rs_heap _ _ HR) as (Hn & Hl & _).
    destruct (existsb owned (op_conts s)) eqn:E; cbn [orb].
    - destruct (release_all_fresh (rev (op_stack s)) (op_heap s)) as (h' & Eh & _ & Hf).
      + rewrite mems_rev_perm, (mems_same _ _ (rs_mem _ _ HR)); exact Hn.
      + intros m Hi; rewrite mems_rev in Hi; rewrite (mems_same _ _ (rs_mem _ _ HR)) in Hi; apply Hl, Hi.
      + rewrite Eh; cbn [bindR]; rewrite release_all_again; [reflexivity|rewrite existsb_rev; exact E|].
        intros m Hi; apply Hf; left; rewrite mems_rev; rewrite mems_rev in Hi; rewrite (mems_same _ _ (rs_mem _ _ HR)); exact Hi.
    - rewrite release_all_unowned by (rewrite existsb_rev, (owned_same _ _ (rs_mem _ _ HR)); exact E); cbn [bindR].
      rewrite release_all_unowned by (rewrite existsb_rev; exact E); cbn [bindR].
      apply release_old, (rs_old _ _ HR).
  Qed.

  Lemma Rs_new n path : Rs (opost_new n path) (postc_new n path).
  Proof.
    constructor; cbn; auto; try reflexivity.
    - split; [constructor|split; intros m []].
    - intros c m [=].
  Qed.
End Post.
