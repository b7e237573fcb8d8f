(** * Proofs for the depth-first postorder iterators with ancestors and with context. *)
From Verif Require Import Prelim PrelimFacts Spec SpecFacts ModelNode NodeFacts ModelPre ModelPost Slots ProofsPlain ProofsPre.

(** ** Postorder with ancestors *)
Section PostAnc.
  Context {Nd V : Type} (gvc : Nd -> V * list Nd) (nt : Nd -> tree Nd).
  Hypothesis Hnt : node_tree gvc nt.
  Local Notation value := (nval gvc).
  Local Notation kids := (nkids gvc).

  Definition apost (ab : list Nd) (n : Nd) : list (list V) := map (ancestors_at gvc) (postorder (annotate [] ab (nt n))).

  Lemma panc_post_path : forall (t : tree Nd) p q ab,
    map (ancestors_at gvc) (postorder (annotate p ab t)) = map (ancestors_at gvc) (postorder (annotate q ab t)).
  Proof.
    intros t; induction t as [v ts IH] using tree_ind'; intros p q ab; cbn.
    rewrite !map_app; f_equal; rewrite !map_flat_map; generalize 0 as i.
    induction IH as [|x l Hx _ IHl]; intros i; cbn; [reflexivity|].
    rewrite (Hx (p ++ [i]) (q ++ [i])), IHl; reflexivity.
  Qed.

  Lemma apost_unfold ab n : apost ab n = flat_map (apost (ab ++ [n])) (kids n) ++ [map value (ab ++ [n])].
  Proof.
    unfold apost; rewrite (nt_unfold _ _ Hnt n); cbn [annotate postorder]; rewrite map_app; f_equal.
    rewrite map_flat_map; generalize 0 as i.
    induction (kids n) as [|c cs IH]; intros i; cbn; [reflexivity|].
    rewrite IH; f_equal; apply panc_post_path.
  Qed.

  Fixpoint paout (stack : list (list Nd)) (anc : list Nd) : list (list V) :=
    match stack, anc with
    | top :: stack', _ :: anc' => flat_map (apost (rev anc)) top ++ map value (rev anc) :: paout stack' anc'
    | _, _ => []
    end.

  (** At rest: the last element of item_stack is the node just given; below it are the open nodes. *)
  Definition posta_R (s : post_iter Nd V) (l : list (list V)) : Prop :=
    match po_root s with
    | Some n => po_stack s = [] /\ po_items s = [] /\ l = apost [] n
    | None => exists anc, length anc = length (po_stack s) /\ tl (po_items s) = map value anc /\
                          l = paout (po_stack s) anc
    end.

  Lemma posta_down n : forall stack anc, length anc = length stack ->
    exists items' stack', (fun f => loop (posta_body gvc) f (map value (n :: anc), kids n :: stack)) ⇓ Ok (items', stack') /\
      Some (rev items') = hd_error (apost (rev anc) n) /\ items' <> [] /\
      posta_R (mkPost None items' stack') (tl (apost (rev anc) n) ++ paout stack anc).
  Proof.
    induction n as [n IH] using (node_ind gvc nt Hnt); intros stack anc Hlen.
    rewrite apost_unfold.
    destruct (kids n) as [|c cs].
    - exists (map value (n :: anc)), stack; split; [apply loop_done; now_conv|split; [|split; [discriminate|]]].
      + cbn [flat_map app hd_error]; rewrite <- map_rev; reflexivity.
      + exists anc; cbn; auto.
    - inversion IH as [|? ? IHc _]; subst.
      destruct (IHc (cs :: stack) (n :: anc)) as (items' & stack' & Hl & E & Hne & HR); [cbn; lia|].
      exists items', stack'; split; [|split; [|split; [exact Hne|]]].
      + eapply loop_step; [apply conv_eq; intros f; cbn; rewrite (gv_eq gvc c); reflexivity|exact Hl].
      + rewrite E; cbn [flat_map rev]; rewrite apost_unfold.
        destruct (flat_map _ (kids c)); reflexivity.
      + replace (tl (flat_map (apost (rev anc ++ [n])) (c :: cs) ++ [map value (rev anc ++ [n])]) ++ paout stack anc)
          with (tl (apost (rev (n :: anc)) c) ++ paout (cs :: stack) (n :: anc)); [exact HR|].
        cbn [flat_map rev paout]; rewrite apost_unfold.
        destruct (flat_map _ (kids c)); cbn; rewrite <- !app_assoc; reflexivity.
  Qed.

  Lemma posta_get_ne r items stack : items <> [] -> posta_get (Nd:=Nd) (V:=V) (mkPost r items stack) = Some (rev items).
  Proof. destruct items; [congruence|reflexivity]. Qed.

  Lemma posta_step : step_inv (posta_next gvc) posta_R.
  Proof.
    intros [r items stack] l H; unfold posta_R in H; cbn in H; unfold posta_next, posta_advance; cbn [po_root po_items po_stack].
    destruct r as [n|].
    - destruct H as (-> & -> & ->).
      destruct (posta_down n [] [] eq_refl) as (items' & stack' & Hl & E & Hne & HR).
      exists (mkPost None items' stack'); split.
      + eapply conv_bind.
        * rewrite (gv_eq gvc n); eapply conv_bind; [exact Hl|now_conv].
        * rewrite (posta_get_ne None items' stack' Hne), E; now_conv.
      + cbn in HR; rewrite app_nil_r in HR; exact HR.
    - destruct H as (anc & Hlen & -> & ->).
      destruct stack as [|top rest].
      + destruct anc; [|discriminate].
        exists (mkPost None [] []); split; [|exists []; cbn; auto].
        eapply conv_bind; [eapply conv_bind; [apply loop_done; now_conv|now_conv]|now_conv].
      + destruct anc as [|a anc]; [discriminate|]; injection Hlen as Hlen.
        destruct top as [|c top].
        * exists (mkPost None (map value (a :: anc)) rest); split; [|exists anc; cbn; auto].
          eapply conv_bind; [eapply conv_bind; [apply loop_done; now_conv|now_conv]|].
          cbn beta; rewrite (posta_get_ne None (map value (a :: anc)) rest) by discriminate.
          cbn [paout flat_map app hd_error]; rewrite <- map_rev; now_conv.
        * destruct (posta_down c (top :: rest) (a :: anc)) as (items' & stack' & Hl & E & Hne & HR); [cbn; lia|].
          exists (mkPost None items' stack'); split.
          -- eapply conv_bind; [eapply conv_bind; [eapply loop_step; [|exact Hl]|now_conv]|].
             ++ apply conv_eq; intros f; cbn; rewrite (gv_eq gvc c); reflexivity.
             ++ cbn beta; rewrite (posta_get_ne None items' stack' Hne), E.
                cbn [paout flat_map]; rewrite apost_unfold; destruct (flat_map _ (kids c)); now_conv.
          -- cbn [paout flat_map] in *.
             replace (tl _) with (tl (apost (rev (a :: anc)) c) ++ flat_map (apost (rev (a :: anc))) top ++ map value (rev (a :: anc)) :: paout rest anc); [exact HR|].
             rewrite <- app_assoc, apost_unfold; destruct (flat_map _ (kids c)); reflexivity.
  Qed.

  Lemma posta_yields n :
    yields (posta_next gvc) (post_new n) (map (ancestors_at gvc) (postorder (positions (nt n)))).
  Proof. apply (step_inv_yields _ _ posta_step); unfold posta_R; cbn; auto. Qed.
End PostAnc.

(** ** Postorder with context, borrowed *)
Section PostCtx.
  Context {Nd V C : Type} (gv : Nd -> V * C) (into_iter : C -> list (option Nd)).
  Local Notation value := (nval gv).
  Local Notation slots := (fun n => into_iter (nkids gv n)).
  Context (T : list nat -> list Nd -> Nd -> tree (pos Nd)) (ok : Nd -> Prop) (P0 : list nat).
  Hypothesis HT : slot_law slots T.
  Hypothesis Hok : small_law slots ok.

  Fixpoint fp_out (fs : list (frame Nd)) : list (pos Nd) :=
    match fs with
    | [] => []
    | f :: fs' =>
        flat_map postorder (sforest T (rev (fpath P0 fs')) (rev (f_node f :: fanc fs')) (f_next f) (f_slots f))
        ++ mkPos (rev (fpath P0 fs')) (rev (fanc fs')) (f_node f) :: fp_out fs'
    end.

  (** The loop state when the slots of the top frame are searched. *)
  Definition pst_of (fs : list (frame Nd)) : pt_loop_st (V:=V) (option Nd) C :=
    (map f_slots fs, map (fun f => nkids gv (f_node f)) fs, spath P0 fs, map value (fanc fs)).

  (** Searching from frame [f]: the loop stops at the first node of [fp_out]. *)
  Definition reaches (f : frame Nd) (fs : list (frame Nd)) : Prop :=
    exists a fs1, frames_ok ok fs1 /\
      (fun g => loop (postcb_body gv into_iter) g (pst_of (f :: fs))) ⇓
        Ok ((map f_slots fs1, map (fun f => nkids gv (f_node f)) fs1, map N.of_nat (fpath P0 fs1), map value (a :: fanc fs1)),
            nkids gv a) /\
      fp_out (f :: fs) = mkPos (rev (fpath P0 fs1)) (rev (fanc fs1)) a :: fp_out fs1.

  Lemma post_search_frame l : forall j a fs, frame_ok ok (mkFrame l j a) -> frames_ok ok fs ->
    (forall c, In (Some c) l -> forall fs, frames_ok ok fs -> reaches (mkFrame (slots c) 0 c) fs) ->
    reaches (mkFrame l j a) fs.
  Proof.
    intros j a fs [Hf1 Hf2] Hfs Hrec; cbn [f_slots f_next] in Hf1, Hf2.
    destruct (scan_spec T (rev (fpath P0 fs)) (rev (a :: fanc fs)) l j (map N.of_nat (fpath P0 fs)) Hf2)
      as [[E [path' Hs]]|(c & i & l' & Hs & Hin & Hsub & Hlen & E)].
    - exists a, fs; split; [exact Hfs|split].
      + apply loop_done, conv_eq; intros g; unfold pst_of, postcb_body.
        cbn [map spath f_slots f_next f_node fanc]; rewrite Hs; reflexivity.
      + cbn [fp_out f_node f_next f_slots]; rewrite E; reflexivity.
    - set (fs1 := mkFrame l' (S i) a :: fs).
      assert (Hfs1 : frames_ok ok fs1).
      { constructor; [|exact Hfs]; split; [split|cbn; lia]; cbn [f_slots f_next].
        - intros x Hx; apply Hf1, Hsub, Hx.
        - lia. }
      destruct (Hrec c Hin fs1 Hfs1) as (b & fs2 & H1 & Hl & Eo).
      exists b, fs2; split; [exact H1|split].
      + eapply loop_step; [|exact Hl].
        apply conv_eq; intros g; unfold pst_of, postcb_body.
        cbn [map spath f_slots f_next f_node fanc]; rewrite Hs; cbn [bindR]; rewrite (gv_eq gv c).
        subst fs1; cbn [map f_slots f_node fpath f_next pred enc]; reflexivity.
      + rewrite <- Eo; subst fs1.
        cbn [fp_out f_node f_next f_slots flat_map fpath pred]; rewrite E; cbn [flat_map]; rewrite HT; cbn [postorder].
        rewrite <- !app_assoc; reflexivity.
  Qed.

  Lemma post_search_node n : ok n -> forall fs, frames_ok ok fs -> reaches (mkFrame (slots n) 0 n) fs.
  Proof.
    induction n as [n IH] using (slot_ind _ T HT); intros Hn fs Hfs.
    apply post_search_frame; [exact (frame_ok_new slots ok n Hok Hn)|exact Hfs|].
    intros c Hc; apply IH; [exact Hc|]; exact (proj2 (Hok n Hn) c Hc).
  Qed.

  Lemma post_search f fs : frames_ok ok (f :: fs) -> reaches f fs.
  Proof.
    intros H; inversion H as [|? ? [Hf _] Hfs]; subst.
    destruct f as [l j a]; apply post_search_frame; [exact Hf|exact Hfs|].
    intros c Hc; apply post_search_node; exact (proj1 Hf c Hc).
  Qed.

  Definition postcb_R (s : postc Nd V (option Nd) C) (l : list (tree_context V C)) : Prop :=
    (exists n, ok n /\ s = postc_new n (map N.of_nat P0) /\ l = map (context_at gv) (postorder (T P0 [] n))) \/
    (exists fs, frames_ok ok fs /\ pt_root s = None /\ pt_stack s = map f_slots fs /\
       pt_conts s = map (fun f => nkids gv (f_node f)) fs /\
       (fs <> [] -> pt_path s = map N.of_nat (fpath P0 fs)) /\
       tl (pt_anc s) = map value (fanc fs) /\ l = map (context_at gv) (fp_out fs)).

  Lemma postc_get_at stack conts p n anc :
    postc_get (Nd:=Nd) (V:=V) (I:=option Nd)
      (mkPostc None stack conts (map N.of_nat p) (map value (n :: anc)) (Some (nkids gv n))) =
    Some (context_at gv (mkPos (rev p) (rev anc) n)).
  Proof.
    unfold postc_get, context_at; cbn [pt_anc pt_path pt_children pos_path pos_above pos_here map].
    rewrite map_app, !map_rev; reflexivity.
  Qed.

  Lemma postcb_step : step_inv (postcb_next gv into_iter) postcb_R.
  Proof.
    intros s l [(n & Hn & -> & ->)|(fs & Hfs & Hr & Hst & Hco & Hpa & Han & ->)].
    - destruct (post_search_node n Hn [] ltac:(constructor)) as (a & fs1 & H1 & Hl & Eo).
      exists (mkPostc None (map f_slots fs1) (map (fun f => nkids gv (f_node f)) fs1) (map N.of_nat (fpath P0 fs1))
                 (map value (a :: fanc fs1)) (Some (nkids gv a))).
      assert (E : postorder (T P0 [] n) = fp_out [mkFrame (slots n) 0 n]).
      { rewrite HT; cbn; rewrite rev_involutive; reflexivity. }
      rewrite E, Eo; split.
      + eapply conv_bind.
        * unfold postc_advance_with; cbn [postc_new pt_root pt_stack pt_conts pt_path pt_anc].
          rewrite (gv_eq gv n).
          rewrite <- map_rev; eapply conv_bind; [exact Hl|now_conv].
        * rewrite postc_get_at; now_conv.
      + right; exists fs1; repeat split; auto.
    - destruct s as [r stack conts path anc ch]; cbn in Hr, Hst, Hco, Hpa, Han; subst r stack conts.
      destruct fs as [|f fs].
      + exists (mkPostc None [] [] path [] ch); split.
        * apply conv_eq; intros g; unfold postcb_next, postc_advance_with; cbn [pt_root pt_anc]; rewrite Han; reflexivity.
        * right; exists []; repeat split; [constructor|congruence].
      + specialize (Hpa ltac:(discriminate)); subst path.
        destruct (post_search f fs Hfs) as (a & fs1 & H1 & Hl & Eo).
        exists (mkPostc None (map f_slots fs1) (map (fun f => nkids gv (f_node f)) fs1) (map N.of_nat (fpath P0 fs1))
                 (map value (a :: fanc fs1)) (Some (nkids gv a))).
        rewrite Eo; split.
        * eapply conv_bind.
          -- unfold postc_advance_with; cbn [pt_root pt_stack pt_conts pt_path pt_anc]; rewrite Han.
             unfold pst_of in Hl; rewrite (entered_spath P0 ok _ Hfs).
             cbn [fanc map]; eapply conv_bind; [exact Hl|now_conv].
          -- rewrite postc_get_at; now_conv.
        * right; exists fs1; repeat split; auto.
  Qed.

  Lemma postcb_yields n : ok n ->
    yields (postcb_next gv into_iter) (postc_new n (map N.of_nat P0)) (map (context_at gv) (postorder (T P0 [] n))).
  Proof. intros Hn; apply (step_inv_yields _ _ postcb_step); left; eauto. Qed.
End PostCtx.

(** ** The owned machine is a projection of the borrowed one *)

Section PostOwned.
  Context {Nd V : Type}.
  Definition forget_postc {I C} (s : postc Nd V I C) : postc_owned Nd V I :=
    mkPostcO (pt_root s) (pt_stack s) (pt_path s) (pt_anc s).
  Definition forget_loop {I C} (s : pt_loop_st (V:=V) I C) : pto_loop_st (V:=V) I :=
    let '(st, _, p, a) := s in (st, p, a).
  Definition forget_loop_r {I C} (s : pt_loop_st (V:=V) I C * C) : pto_loop_st (V:=V) I := forget_loop (fst s).

  Lemma forget_get {I C} (s : postc Nd V I C) : postco_get (forget_postc s) = option_map no_children (postc_get s).
  Proof. destruct s as [r st co p [|a anc] ch]; reflexivity. Qed.

  Lemma postco_sim {I C} (gv : Nd -> V * C) (into_iter : C -> list I) bodyO bodyB :
    (forall f s x, bodyB f s = Ok x -> bodyO f (forget_loop s) = Ok (sum_map forget_loop forget_loop_r x)) ->
    forall f s o s',
      bindR (postc_advance_with gv into_iter bodyB f s) (fun s' => Ok (postc_get s', s')) = Ok (o, s') ->
      bindR (postco_advance_with gv into_iter bodyO f (forget_postc s)) (fun s' => Ok (postco_get s', s')) =
        Ok (option_map no_children o, forget_postc s').
  Proof.
    intros Hb f [r st co p a ch] o s'; unfold postc_advance_with, postco_advance_with, forget_postc.
    cbn [pt_root pt_stack pt_conts pt_path pt_anc pt_children pto_root pto_stack pto_path pto_anc].
    pose proof (loop_sim_ok forget_loop forget_loop_r bodyB bodyO Hb f) as HL.
    destruct r as [n|].
    - destruct (gv n) as [v c].
      destruct (loop bodyB f (into_iter c :: st, c :: co, usize_max :: p, v :: a)) as [[[[[st1 co1] p1] a1] c1]| | |] eqn:El;
        cbn; intros E; try discriminate.
      injection E as <- <-.
      specialize (HL _ _ El); cbn [forget_loop] in HL; rewrite HL; cbn.
      f_equal; f_equal; destruct a1; reflexivity.
    - destruct (tl a) as [|a1 anc1].
      + cbn; intros E; injection E as <- <-; reflexivity.
      + destruct (loop bodyB f (st, co, p, a1 :: anc1)) as [[[[[st1 co1] p1] a2] c1]| | |] eqn:El;
          cbn; intros E; try discriminate.
        injection E as <- <-.
        specialize (HL _ _ El); cbn [forget_loop] in HL; rewrite HL; cbn.
        f_equal; f_equal; destruct a2; reflexivity.
  Qed.

  Lemma postcob_body_sim {C} (gv : Nd -> V * C) into_iter f s x :
    postcb_body gv into_iter f s = Ok x ->
    postcob_body gv into_iter f (forget_loop s) = Ok (sum_map forget_loop forget_loop_r x).
  Proof.
    destruct s as [[[st co] p] a]; cbn.
    destruct st as [|top rest].
    - destruct co; intros E; [discriminate|]; injection E as <-; reflexivity.
    - destruct (prec_scan top p) as [[[[n|] top'] p']| | |]; cbn; try discriminate.
      + destruct (gv n); intros E; injection E as <-; reflexivity.
      + destruct co; intros E; [discriminate|]; injection E as <-; reflexivity.
  Qed.

  Lemma postco_body_sim (gvc : Nd -> V * list Nd) f s x :
    postc_body gvc f s = Ok x -> postco_body gvc f (forget_loop s) = Ok (sum_map forget_loop forget_loop_r x).
  Proof.
    destruct s as [[[st co] p] a]; cbn.
    destruct st as [|[|n top] rest].
    - destruct co; intros E; [discriminate|]; injection E as <-; reflexivity.
    - destruct co; intros E; [discriminate|]; injection E as <-; reflexivity.
    - destruct (incr_last p); cbn; try discriminate.
      destruct (gvc n); intros E; injection E as <-; reflexivity.
  Qed.

  Lemma postcob_next_sim {C} (gv : Nd -> V * C) into_iter f s o s' :
    postcb_next gv into_iter f s = Ok (o, s') ->
    postcob_next gv into_iter f (forget_postc s) = Ok (option_map no_children o, forget_postc s').
  Proof. apply postco_sim; intros; apply postcob_body_sim; assumption. Qed.

  Lemma postco_next_sim (gvc : Nd -> V * list Nd) f s o s' :
    postc_next gvc f s = Ok (o, s') ->
    postco_next gvc f (forget_postc s) = Ok (option_map no_children o, forget_postc s').
  Proof. apply postco_sim; intros; apply postco_body_sim; assumption. Qed.

  (** The n-ary machine is the slot machine without empty slots. *)
  Definition slot_postc (s : postc Nd V Nd (list Nd)) : postc Nd V (option Nd) (list Nd) :=
    mkPostc (pt_root s) (map (map Some) (pt_stack s)) (pt_conts s) (pt_path s) (pt_anc s) (pt_children s).
  Definition slot_ploop (s : pt_loop_st (V:=V) Nd (list Nd)) : pt_loop_st (V:=V) (option Nd) (list Nd) :=
    let '(st, co, p, a) := s in (map (map Some) st, co, p, a).
  Definition slot_ploop_r (s : pt_loop_st (V:=V) Nd (list Nd) * list Nd) : pt_loop_st (V:=V) (option Nd) (list Nd) * list Nd :=
    let '(s, c) := s in (slot_ploop s, c).

  Lemma postc_body_slot (gvc : Nd -> V * list Nd) f s :
    postcb_body gvc (map Some) f (slot_ploop s) = Rmap (sum_map slot_ploop slot_ploop_r) (postc_body gvc f s).
  Proof.
    destruct s as [[[[|[|n top] rest] co] path] anc]; cbn.
    - destruct co; reflexivity.
    - destruct co; reflexivity.
    - destruct (incr_last path); cbn; try reflexivity; destruct (gvc n); reflexivity.
  Qed.

  Lemma postc_next_slot (gvc : Nd -> V * list Nd) f s :
    postcb_next gvc (map Some) f (slot_postc s) = Rmap (fun '(o, s') => (o, slot_postc s')) (postc_next gvc f s).
  Proof.
    unfold postcb_next, postc_next, postc_advance_with.
    destruct s as [r stack conts path anc ch]; unfold slot_postc;
      cbn [pt_root pt_stack pt_conts pt_path pt_anc pt_children].
    destruct r as [n|].
    - destruct (gvc n) as [v c].
      change (map Some c :: map (map Some) stack, c :: conts, usize_max :: path, v :: anc)
        with (slot_ploop (c :: stack, c :: conts, usize_max :: path, v :: anc)).
      rewrite (loop_sim slot_ploop slot_ploop_r _ _ (postc_body_slot gvc)).
      destruct (loop _ f _) as [[[[[st1 co1] p1] a1] c1]| | |]; reflexivity.
    - destruct (tl anc) as [|a1 anc1]; [reflexivity|].
      change (map (map Some) stack, conts, path, a1 :: anc1) with (slot_ploop (stack, conts, path, a1 :: anc1)).
      rewrite (loop_sim slot_ploop slot_ploop_r _ _ (postc_body_slot gvc)).
      destruct (loop _ f _) as [[[[[st1 co1] p1] a2] c1]| | |]; reflexivity.
  Qed.

  Lemma slot_postc_inj (x y : postc Nd V Nd (list Nd)) : slot_postc x = slot_postc y -> x = y.
  Proof.
    destruct x as [r st co p a c], y as [r' st' co' p' a' c']; unfold slot_postc; cbn; intros E.
    injection E as -> E -> -> -> ->; apply map_map_Some_inj in E; subst; reflexivity.
  Qed.

  Lemma postc_yields (gvc : Nd -> V * list Nd) nt P0 n : node_tree gvc nt ->
    small_nodes gvc (nt n) ->
    yields (postc_next gvc) (postc_new n (map N.of_nat P0)) (map (context_at gvc) (postorder (annotate P0 [] (nt n)))).
  Proof.
    intros Hnt Hsm.
    apply (yields_sim slot_postc _ _ slot_postc_inj (postc_next_slot gvc)).
    exact (postcb_yields gvc (map Some) _ _ P0 (slot_law_nary gvc nt Hnt) (small_law_nary gvc nt Hnt) n Hsm).
  Qed.

  Lemma postco_yields (gvc : Nd -> V * list Nd) nt P0 n : node_tree gvc nt ->
    small_nodes gvc (nt n) ->
    yields (postco_next gvc) (postco_new n (map N.of_nat P0))
      (map no_children (map (context_at gvc) (postorder (annotate P0 [] (nt n))))).
  Proof.
    intros Hnt Hsm.
    exact (yields_sim_ok forget_postc no_children _ _ (postco_next_sim gvc) _ _ (postc_yields gvc nt P0 n Hnt Hsm)).
  Qed.

  Lemma postcob_yields {C} (gv : Nd -> V * C) into_iter T ok P0 n :
    slot_law (fun n => into_iter (nkids gv n)) T -> small_law (fun n => into_iter (nkids gv n)) ok -> ok n ->
    yields (postcob_next gv into_iter) (postco_new n (map N.of_nat P0))
      (map no_children (map (context_at gv) (postorder (T P0 [] n)))).
  Proof.
    intros HT Hok Hn.
    exact (yields_sim_ok forget_postc no_children _ _ (postcob_next_sim gv into_iter) _ _
             (postcb_yields gv into_iter T ok P0 HT Hok n Hn)).
  Qed.
End PostOwned.
