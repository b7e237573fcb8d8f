(** * ProofsUnwindCtx: the iterators of ModelUnwindCtx up to the first panic, as in ProofsUnwindUntil. *)
From Verif Require Import Prelim PrelimFacts FuelMono Spec SpecFacts SpecObs ModelNode NodeFacts ModelBfs ModelPre ModelPost ModelIn ModelLeaves ModelUnwind ModelUnwindCtx SpecUnwind.
From Verif Require Import Slots ProofsPlain ProofsPre ProofsPost ProofsIn ProofsTree ProofsLeaves BfsCore ProofsBfs ProofsEdit ProofsUnwind ProofsUnwindIn ProofsUnwindUntil ProofsUnwindTotal.

Definition ran_map {S T} (f : S -> T) (r : ran S) : ran T := match r with Done s => Done (f s) | Raised s => Raised (f s) end.

Section UntilBinary.
  Context {Nd V : Type}.
  Local Notation C := (option Nd * option Nd)%type.
  Variable gvcb : Nd -> option (V * C).
  Notation btot := (btot gvcb).

  Lemma seen_bgot_context p : got_context (context_at btot p) = seen_context gvcb p.
  Proof.
    rewrite <- seen_ctx; unfold got_context, got_ctx, got_slice; destruct (last (c_ancestors (context_at btot p)) None); reflexivity.
  Qed.

  Definition pcb_lift (s : prec Nd V (option Nd) C) : prec Nd (option V) (option Nd) C :=
    mkPrec (pc_root s) (pc_stack s) (pc_path s) (map Some (pc_anc s)) (pc_children s).

  Lemma pcb_loop f st pa an : loop precb_body f (st, pa, map Some an) =
    Rmap (fun '(n, (st', pa', an')) => (n, (st', pa', map (@Some V) an'))) (loop (@precb_body Nd V) f (st, pa, an)).
  Proof.
    revert st pa an; induction f as [|f IH]; intros st pa an; cbn [loop]; [reflexivity|].
    unfold precb_body at 1 3; destruct st as [|top rest]; [reflexivity|].
    destruct (prec_scan top pa) as [[[[n|] top'] pa']| | |]; cbn [bindR Rmap]; try reflexivity; rewrite map_tl; apply IH.
  Qed.

  Lemma precb_until bt p n : fnode_btree gvcb bt ->
    yields_until_panic (uprecb_next gvcb) (prec_new n (map N.of_nat p)) (map (seen_context gvcb) (preorder (flat (bannotate p [] (bt n))))).
  Proof.
    intros H; rewrite <- (map_ext _ _ seen_bgot_context), <- (map_map (context_at btot) got_context).
    apply (until_sim (precb_next btot pair_iter) _ got_context (fun a b => a = pcb_lift b)) with (s1 := prec_new n (map N.of_nat p));
      [|reflexivity|exact (precb_yields btot pair_iter _ _ p (slot_law_binary btot bt (node_btot gvcb bt H)) (small_law_binary btot) n I)].
    apply (until_step (precb_advance btot pair_iter) prec_get (uprecb_advance gvcb) prec_get pcb_lift (fun x => topped (pc_anc x))).
    - intros F [r st pa an ch] x E; unfold precb_advance, prec_advance_with, uprecb_advance, pcb_lift in *; cbn [pc_root pc_stack pc_path pc_anc pc_children] in *.
      destruct r as [root|].
      + unfold ProofsUnwindIn.btot in E; destruct (gvcb root) as [[v c]|] eqn:Er; injection E as <-; eexists; (split; [reflexivity|]); [reflexivity|eexists; reflexivity].
      + destruct an as [|a an]; [cbn [map] in E; injection E as <-; eexists; split; reflexivity|].
        cbn [map] in E.
        assert (Hgo : forall st0 pa0 an0, ('(next, (stack, path, anc)) <- loop precb_body F (st0, pa0, map Some an0);;
            match next with Some node => let '(value, children) := btot node in Ok (mkPrec None stack path (value :: anc) (Some children)) | None => Ok (mkPrec None stack path [] None) end) = Ok x ->
          exists r, ('(next, (stack, path, anc)) <- loop precb_body F (st0, pa0, an0);;
            match next with Some node => match gvcb node with Some (value, children) => Ok (Done (mkPrec None stack path (value :: anc) (Some children))) | None => Ok (Raised (mkPrec None stack path anc None)) end
            | None => Ok (Done (mkPrec None stack path [] None)) end) = Ok r /\ match r with Done s2 => x = pcb_lift s2 | Raised _ => topped (pc_anc x) end).
        { clear E; intros st0 pa0 an0 E; rewrite pcb_loop in E; destruct (loop precb_body F (st0, pa0, an0)) as [[next [[st1 pa1] an1]]| | |]; cbn [Rmap bindR] in E |- *; try discriminate E.
          destruct next as [m|]; [|injection E as <-; eexists; split; reflexivity].
          unfold ProofsUnwindIn.btot in E; destruct (gvcb m) as [[v c]|]; injection E as <-; eexists; (split; [reflexivity|]); [reflexivity|eexists; reflexivity]. }
        destruct ch as [c|]; [exact (Hgo (pair_iter c :: st) (usize_max :: pa) (a :: an) E)|exact (Hgo st _ an E)].
    - intros [r st pa [|v an] ch]; [reflexivity|exact (context_some _ _ v an)].
    - intros [r st pa an ch] [l E]; cbn in E; subst an; exact (context_none _ _ l).
    - intros s; unfold uprecb_advance; destruct (pc_root s) as [r|]; [destruct (gvcb r) as [[v c]|]; apply more_const|].
      destruct (pc_anc s); [apply more_const|].
      destruct (match pc_children s with Some _ => _ | None => _ end) as [[st pa] an].
      apply (more_bind _ (fun _ => _)); [apply more_flat; intros f g [[? ?] ?]; reflexivity|].
      intros [[m|] [[? ?] ?]]; [destruct (gvcb m) as [[? ?]|]|]; apply more_const.
  Qed.

  (** ** Postorder *)
  Definition pocb_lift (s : postc Nd V (option Nd) C) : postc Nd (option V) (option Nd) C :=
    mkPostc (ModelPost.pt_root s) (ModelPost.pt_stack s) (pt_conts s) (ModelPost.pt_path s) (map Some (pt_anc s)) (pt_children s).

  (** A node without children, entered: nothing more comes before its context. *)
  Lemma postcb_leaf F st (co : list C) c pa an r1 :
    loop (postcb_body btot pair_iter) F ([None; None] :: st, c :: co, usize_max :: pa, an) = Ok r1 -> snd (fst r1) = an.
  Proof. destruct F as [|F]; [discriminate|]; intros E; cbn [loop postcb_body prec_scan incr_last bindR tl] in E; injection E as <-; reflexivity. Qed.

  Lemma pocb_loop f st co pa an r1 : loop (postcb_body btot pair_iter) f (st, co, pa, map Some an) = Ok r1 ->
    exists r2, loop (upostcb_body gvcb) f (st, co, pa, an) = Ok r2 /\
      match r2 with
      | (Done (st', co', pa', an'), c) => exists c', c = Some c' /\ r1 = (st', co', pa', map Some an', c')
      | (Raised _, _) => topped (snd (fst r1))
      end.
  Proof.
    intros E.
    refine (ProofsUnwind.loop_sim (postcb_body btot pair_iter) (upostcb_body gvcb) (fun a b => a = (fst (fst (fst b)), snd (fst (fst b)), snd (fst b), map Some (snd b)))
      (fun r1 r2 => match r2 with
      | (Done (st', co', pa', an'), c) => exists c', c = Some c' /\ r1 = (st', co', pa', map Some an', c')
      | (Raised _, _) => topped (snd (fst r1))
      end) _ f (st, co, pa, map Some an) (st, co, pa, an) r1 eq_refl E).
    clear; intros f s1 [[[st co] pa] an] ->; cbn [fst snd]; unfold postcb_body at 1 3, upostcb_body.
    destruct st as [|top rest].
    - destruct co as [|c co]; split; intros x E; try discriminate E; injection E as <-; eexists; split; [reflexivity|eexists; split; reflexivity].
    - destruct (prec_scan top pa) as [[[[n|] top'] pa']| | |]; cbn [bindR]; try (split; discriminate).
      + replace (btot n) with (match gvcb n with Some (v, c) => (Some v, c) | None => (None, (None, None)) end) by reflexivity.
        destruct (gvcb n) as [[v c]|]; split; intros x E; try discriminate E; injection E as <-.
        * left; eexists; split; reflexivity.
        * right; eexists; split; [reflexivity|]; intros f' r1 E; exists an; exact (postcb_leaf _ _ _ _ _ _ _ E).
      + destruct co as [|c co]; split; intros x E; try discriminate E; injection E as <-; eexists; split; [reflexivity|eexists; split; reflexivity].
  Qed.

  Lemma postcb_until bt p n : fnode_btree gvcb bt ->
    yields_until_panic (upostcb_next gvcb) (postc_new n (map N.of_nat p)) (map (seen_context gvcb) (postorder (flat (bannotate p [] (bt n))))).
  Proof.
    intros H; rewrite <- (map_ext _ _ seen_bgot_context), <- (map_map (context_at btot) got_context).
    apply (until_sim (postcb_next btot pair_iter) _ got_context (fun a b => a = pocb_lift b)) with (s1 := postc_new n (map N.of_nat p));
      [|reflexivity|exact (postcb_yields btot pair_iter _ _ p (slot_law_binary btot bt (node_btot gvcb bt H)) (small_law_binary btot) n I)].
    apply (until_step (postc_advance_with btot pair_iter (postcb_body btot pair_iter)) postc_get (upostcb_advance gvcb) postc_get pocb_lift (fun x => topped (pt_anc x))).
    - intros F [r st co pa an ch] x E; unfold postc_advance_with, upostcb_advance, pocb_lift in *; cbn [ModelPost.pt_root ModelPost.pt_stack pt_conts ModelPost.pt_path pt_anc pt_children] in *.
      assert (Hgo : forall st0 co0 pa0 an0, ('((stack, conts, path, anc), c) <- loop (postcb_body btot pair_iter) F (st0, co0, pa0, map Some an0);; Ok (mkPostc None stack conts path anc (Some c))) = Ok x ->
        exists r, (r <- loop (upostcb_body gvcb) F (st0, co0, pa0, an0) ;; Ok (upostcb_end ch r)) = Ok r /\ match r with Done s2 => x = pocb_lift s2 | Raised _ => topped (pt_anc x) end).
      { clear E; intros st0 co0 pa0 an0 E; destruct (loop (postcb_body btot pair_iter) F _) as [r1| | |] eqn:El; try discriminate E.
        destruct (pocb_loop F st0 co0 pa0 an0 r1 El) as (r2 & -> & Hr); destruct r1 as [[[[st1 co1] pa1] an1] c1]; cbn [bindR] in E |- *; injection E as <-.
        eexists; split; [reflexivity|]; destruct r2 as [[[[[st2 co2] pa2] an2]|[[[st2 co2] pa2] an2]] c2]; cbn [upostcb_end].
        - destruct Hr as (c' & -> & E); injection E as -> -> -> -> ->; reflexivity.
        - exact Hr. }
      destruct r as [root|].
      + unfold ProofsUnwindIn.btot in E at 1; destruct (gvcb root) as [[v c]|] eqn:Er.
        * exact (Hgo (pair_iter c :: st) (c :: co) (usize_max :: pa) (v :: an) E).
        * eexists; split; [reflexivity|]; destruct (loop (postcb_body btot pair_iter) F _) as [[[[[st1 co1] pa1] an1] c1]| | |] eqn:El; cbn [bindR] in E; try discriminate E.
          injection E as <-; exists an; exact (postcb_leaf _ _ _ _ _ _ _ El).
      + rewrite map_tl in E; destruct (tl an) as [|a an']; cbn [map] in E; [injection E as <-; eexists; split; reflexivity|].
        exact (Hgo st co pa (a :: an') E).
    - intros [r st co pa [|v an] ch]; [reflexivity|exact (context_some _ _ v an)].
    - intros [r st co pa an ch] [l E]; cbn in E; subst an; exact (context_none _ _ l).
    - assert (Hl : forall ch s, more (fun f => r <- loop (upostcb_body gvcb) f s ;; Ok (upostcb_end ch r))).
      { intros ch s; apply (more_bind _ (fun _ => _)); [apply more_flat; intros f g [[[? ?] ?] ?]; reflexivity|intros; apply more_const]. }
      intros s; unfold upostcb_advance; destruct (ModelPost.pt_root s) as [r|]; [destruct (gvcb r) as [[v c]|]; [apply Hl|apply more_const]|].
      destruct (tl (pt_anc s)); [apply more_const|apply Hl].
  Qed.

  (** ** Breadth first *)
  Definition bcb_lift (s : bfsc V (option Nd) C) : bfsc (option V) (option Nd) C :=
    mkBfsc (bc_is_root s) (cm Some (bc_cache s)) (map (cm Some) (bc_stack s)) (bc_queue s) (bc_path s) (map Some (bc_anc s)) (bc_children s) (bc_counter s).

  Lemma bcb_loop f s x : loop (bfscb_body btot) f (bcb_lift s) = Ok x ->
    exists r, loop (ubfscb_body gvcb) f s = Ok r /\ match r with Done s2 => x = bcb_lift s2 | Raised _ => topped (bc_anc x) end.
  Proof.
    intros E.
    refine (ProofsUnwind.loop_sim (bfscb_body btot) (ubfscb_body gvcb) (fun a b => a = bcb_lift b)
      (fun x r => match r with Done s2 => x = bcb_lift s2 | Raised _ => topped (bc_anc x) end) _ f (bcb_lift s) s x eq_refl E).
    clear; intros f s1 [ro ca st qu pa an ch cn] ->; unfold bfscb_body, ubfscb_body, bcb_lift; cbn [bc_is_root bc_cache bc_stack bc_queue bc_path bc_anc bc_children bc_counter].
    pose proof (maybe_pop_cm (@Some V) (an, pa, ca, st)) as Ep; cbn [cst] in Ep; rewrite Ep; clear Ep.
    destruct (cmaybe_pop (an, pa, ca, st)) as [[[[an1 pa1] ca1] st1]| | |]; cbn [bindR Rmap cst]; try (split; discriminate).
    destruct qu as [|front qu]; [split; discriminate|].
    destruct (bfsc_skip front cn) as [[[[nd|] iter] cn1]| | |]; cbn [bindR]; try (split; discriminate).
    - destruct (checked_succ cn1) as [cn'| | |]; cbn [bindR]; try (split; discriminate).
      unfold ProofsUnwindIn.btot; destruct (gvcb nd) as [[v c]|]; split; intros x E; try discriminate E; injection E as <-; eexists; (split; [reflexivity|]);
        [reflexivity|eexists; reflexivity].
    - pose proof (to_next_cm (@Some V) f (an1, pa1, ca1, st1)) as Ep; cbn [cst] in Ep; rewrite Ep; clear Ep.
      destruct (cto_next_parent f (an1, pa1, ca1, st1)) as [[[[an2 pa2] ca2] st2]| | |]; cbn [bindR Rmap cst]; try (split; discriminate).
      destruct qu; split; intros x E; try discriminate E; injection E as <-; [eexists; split; reflexivity|left; eexists; split; reflexivity].
  Qed.

  Lemma bfscb_until bt p n s : fnode_btree gvcb bt -> ubfscb_start gvcb n (map N.of_nat p) = Some s ->
    yields_until_panic (ubfscb_next gvcb) s (map (seen_context gvcb) (bfs (flat (bannotate p [] (bt n))))).
  Proof.
    intros H Es; rewrite <- (map_ext _ _ seen_bgot_context), <- (map_map (context_at btot) got_context).
    apply (until_sim (bfscb_next btot pair_iter) _ got_context (fun a b => a = bcb_lift b)) with (s1 := bcb_lift s); [|reflexivity|].
    2:{ unfold ubfscb_start in Es; destruct (gvcb n) as [[v c]|] eqn:E; [injection Es as <-|discriminate Es].
        pose proof (bfscb_yields btot pair_iter _ _ p n (slot_law_binary btot bt (node_btot gvcb bt H)) (small_law_binary btot) I) as Hy.
        replace (nval btot n) with (Some v) in Hy by (unfold nval, ProofsUnwindIn.btot; rewrite E; reflexivity).
        replace (nkids btot n) with c in Hy by (unfold nkids, ProofsUnwindIn.btot; rewrite E; reflexivity).
        exact Hy. }
    apply (until_step (bfscb_advance btot pair_iter) bfsc_get (ubfscb_advance gvcb) bfsc_get bcb_lift (fun x => topped (bc_anc x))).
    - intros F [ro ca st qu pa an ch cn] x E; unfold bfscb_advance, bfsc_advance_with, ubfscb_advance, bcb_lift in *; cbn [bc_is_root bc_cache bc_stack bc_queue bc_path bc_anc bc_children bc_counter] in *.
      destruct ro; [injection E as <-; eexists; split; reflexivity|].
      destruct an as [|a an]; cbn [map] in E; [injection E as <-; eexists; split; reflexivity|].
      destruct (unwrap ch) as [c| | |]; cbn [bindR] in E |- *; try discriminate E.
      exact (bcb_loop F (mkBfsc false ca st (qu ++ [pair_iter c]) pa (a :: an) None cn) x E).
    - intros [ro ca st qu pa [|v an] ch cn]; [reflexivity|exact (context_some _ _ v an)].
    - intros [ro ca st qu pa an ch cn] [l E]; cbn in E; subst an; exact (context_none _ _ l).
    - intros s0; unfold ubfscb_advance; destruct (bc_is_root s0); [apply more_const|]; destruct (bc_anc s0); [apply more_const|].
      destruct (unwrap (bc_children s0)) as [c| | |]; cbn [bindR]; try apply more_const.
      apply more_loop; intros s1; unfold ubfscb_body.
      destruct (cmaybe_pop _) as [[[[an1 pa1] ca1] st1]| | |]; cbn [bindR]; try apply more_const.
      destruct (bc_queue s1) as [|front qu]; [apply more_const|].
      destruct (bfsc_skip front _) as [[[[nd|] iter] cn1]| | |]; cbn [bindR]; try apply more_const.
      apply (more_bind _ (fun _ => _)); [apply more_cto_next_parent|intros [[[? ?] ?] ?]; destruct qu; apply more_const].
  Qed.

  (** ** Inorder, owned: the borrowed iterator without its containers. *)
  Lemma uinco_descend_sim f s x : uinc_descend_body gvcb f s = Ok x ->
    uinco_descend_body gvcb f (snd_map forget_inc s) = Ok (sum_map (snd_map forget_inc) (ran_map forget_inc) x).
  Proof.
    destruct s as [[n|] [r p a ch co st]]; cbn.
    - destruct (gvcb n) as [[v [l r']]|]; intros E; injection E as <-; reflexivity.
    - intros E; injection E as <-; reflexivity.
  Qed.

  Lemma uinco_next_sim f s o s' : uinc_next gvcb f s = Ok (o, s') ->
    uinco_next gvcb f (forget_inc s) = Ok (option_map (outcome_map no_children) o, forget_inc s').
  Proof.
    unfold uinc_next, uinco_next, uinc_advance, uinco_advance.
    destruct (loop inc_find_body f s) as [r| | |] eqn:El; cbn [bindR]; try discriminate.
    rewrite (loop_sim_ok _ _ _ _ inco_find_sim f _ _ El); cbn [bindR].
    destruct r as [s1|n s1]; cbn [found_map].
    - cbn [bindR]; intros E; injection E as <- <-; destruct s1 as [? ? [|] ? ? ?]; reflexivity.
    - destruct (loop (uinc_descend_body gvcb) f (Some n, s1)) as [s2| | |] eqn:Ed; cbn [bindR]; try discriminate.
      pose proof (loop_sim_ok _ _ _ _ uinco_descend_sim f _ _ Ed) as Hd; unfold snd_map in Hd; cbn [fst snd] in Hd.
      rewrite Hd; destruct s2 as [s2|s2]; cbn [bindR ran_map forget_inc io_status]; [|intros E; injection E as <- <-; reflexivity].
      destruct (set_returned (ic_status s2)); cbn [bindR]; try discriminate.
      destruct (ic_conts s2); cbn [bindR]; try discriminate.
      intros E; injection E as <- <-; destruct s2 as [? ? [|] ? ? ?]; reflexivity.
  Qed.
End UntilBinary.

Lemma until_sim_ok {S1 S2 A B} (phi : S1 -> S2) (g : A -> B)
    (n1 : nat -> S1 -> Res (option (outcome A) * S1)) (n2 : nat -> S2 -> Res (option (outcome B) * S2)) :
  (forall f s o s', n1 f s = Ok (o, s') -> n2 f (phi s) = Ok (option_map (outcome_map g) o, phi s')) ->
  forall s l, yields_until_panic n1 s l -> yields_until_panic n2 (phi s) (map (outcome_map g) l).
Proof.
  intros H s l Hy k Hk; destruct (Hy k) as [s' [F HF]].
  { intros i Hi E; apply (Hk i Hi); rewrite nth_error_map, E; reflexivity. }
  exists (phi s'), F; intros f Hf.
  rewrite (calls_sim_ok phi (option_map (outcome_map g)) n1 n2 H _ _ _ _ _ (HF f Hf)), map_map.
  do 2 f_equal; apply map_ext; intros i; rewrite nth_error_map; reflexivity.
Qed.

Section Owned.
  Context {Nd V : Type}.

  Lemma postcob_until_sim (gvcb : Nd -> option (V * (option Nd * option Nd))) f s o s' : upostcb_next gvcb f s = Ok (o, s') ->
    upostcob_next gvcb f (forget_postc s) = Ok (option_map (outcome_map no_children) o, forget_postc s').
  Proof.
    assert (Hb : forall f s x, upostcb_body gvcb f s = Ok x ->
      upostco_body gvcb pair_iter prec_scan f (forget_loop s) = Ok (sum_map forget_loop (fun r => ran_map forget_loop (fst r)) x)).
    { clear; intros f [[[st co] p] a] x; cbn; destruct st as [|top rest].
      - destruct co; intros E; [discriminate|]; injection E as <-; reflexivity.
      - destruct (prec_scan top p) as [[[[n|] top'] p']| | |]; cbn; try discriminate.
        + destruct (gvcb n) as [[v c]|]; intros E; injection E as <-; reflexivity.
        + destruct co; intros E; [discriminate|]; injection E as <-; reflexivity. }
    unfold upostcb_next, upostcob_next, upostco_next_with, upostcb_advance, upostco_advance.
    destruct s as [r st co pa an ch]; unfold forget_postc; cbn [ModelPost.pt_root ModelPost.pt_stack pt_conts ModelPost.pt_path pt_anc pt_children pto_root pto_stack pto_path pto_anc].
    assert (Hgo : forall st0 co0 pa0 an0, (r <- (r <- loop (upostcb_body gvcb) f (st0, co0, pa0, an0) ;; Ok (upostcb_end ch r)) ;; Ok (observe postc_get r)) = Ok (o, s') ->
      (r <- (r <- loop (upostco_body gvcb pair_iter prec_scan) f (st0, pa0, an0) ;; Ok (upostco_end r)) ;; Ok (observe postco_get r)) = Ok (option_map (outcome_map no_children) o, forget_postc s')).
    { intros st0 co0 pa0 an0; destruct (loop (upostcb_body gvcb) f (st0, co0, pa0, an0)) as [x| | |] eqn:El; cbn [bindR]; try discriminate.
      pose proof (loop_sim_ok _ _ _ _ Hb f _ _ El) as E2; cbn [forget_loop] in E2; rewrite E2; cbn [bindR].
      destruct x as [[[[[st1 co1] p1] a1]|[[[st1 co1] p1] a1]] c]; cbn [fst ran_map forget_loop upostcb_end upostco_end observe]; intros E; injection E as <- <-;
        [destruct a1|]; reflexivity. }
    destruct r as [root|].
    - destruct (gvcb root) as [[v c]|]; [apply Hgo|cbn [bindR observe]; intros E; injection E as <- <-; reflexivity].
    - destruct (tl an) as [|a an']; [cbn [bindR observe]; intros E; injection E as <- <-; reflexivity|apply Hgo].
  Qed.

  Lemma postco_until_sim (gvc : Nd -> option (V * list Nd)) f s o s' : upostc_next gvc f s = Ok (o, s') ->
    upostco_next gvc f (forget_postc s) = Ok (option_map (outcome_map no_children) o, forget_postc s').
  Proof.
    assert (Hb : forall f s x, upostc_body gvc f s = Ok x ->
      upostco_body gvc (fun l => l) step_scan f (forget_loop s) = Ok (sum_map forget_loop (fun r => ran_map forget_loop (fst r)) x)).
    { clear; intros f [[[st co] p] a] x; cbn; destruct st as [|[|n top] rest].
      - destruct co; intros E; [discriminate|]; injection E as <-; reflexivity.
      - destruct co; intros E; [discriminate|]; injection E as <-; reflexivity.
      - cbn [step_scan]; destruct (incr_last p); cbn [bindR]; try discriminate.
        destruct (gvc n) as [[v c]|]; intros E; injection E as <-; reflexivity. }
    unfold upostc_next, upostco_next, upostco_next_with, upostc_advance, upostco_advance.
    destruct s as [r st co pa an ch]; unfold forget_postc; cbn [ModelPost.pt_root ModelPost.pt_stack pt_conts ModelPost.pt_path pt_anc pt_children pto_root pto_stack pto_path pto_anc].
    assert (Hgo : forall st0 co0 pa0 an0, (r <- (r <- loop (upostc_body gvc) f (st0, co0, pa0, an0) ;; Ok (upostc_end ch r)) ;; Ok (observe postc_get r)) = Ok (o, s') ->
      (r <- (r <- loop (upostco_body gvc (fun l => l) step_scan) f (st0, pa0, an0) ;; Ok (upostco_end r)) ;; Ok (observe postco_get r)) = Ok (option_map (outcome_map no_children) o, forget_postc s')).
    { intros st0 co0 pa0 an0; destruct (loop (upostc_body gvc) f (st0, co0, pa0, an0)) as [x| | |] eqn:El; cbn [bindR]; try discriminate.
      pose proof (loop_sim_ok _ _ _ _ Hb f _ _ El) as E2; cbn [forget_loop] in E2; rewrite E2; cbn [bindR].
      destruct x as [[[[[st1 co1] p1] a1]|[[[st1 co1] p1] a1]] c]; cbn [fst ran_map forget_loop upostc_end upostco_end observe]; intros E; injection E as <- <-;
        [destruct a1|]; reflexivity. }
    destruct r as [root|].
    - destruct (gvc root) as [[v c]|]; [apply Hgo|cbn [bindR observe]; intros E; injection E as <- <-; reflexivity].
    - destruct (tl an) as [|a an']; [cbn [bindR observe]; intros E; injection E as <- <-; reflexivity|apply Hgo].
  Qed.
End Owned.

(** ** Nothing panics *)
Section TotalCtx.
  Context {Nd V : Type}.
  Variable g : Nd -> V * (option Nd * option Nd).
  Local Notation sg := (fun n => Some (g n)).

  Lemma uprecb_total f s : uprecb_next sg f s = (x <- precb_next g pair_iter f s ;; Ok (ran_ok x)).
  Proof.
    unfold uprecb_next, precb_next, uprecb_advance, precb_advance, prec_advance_with; destruct (pc_root s) as [r|]; [destruct (g r); reflexivity|].
    destruct (pc_anc s) as [|a l] eqn:E; [reflexivity|].
    destruct (pc_children s) as [c|]; destruct (loop precb_body f _) as [[[n|] [[? ?] ?]]| | |]; cbn [bindR]; try reflexivity; destruct (g n); reflexivity.
  Qed.
  Lemma upostcb_total f s : upostcb_next sg f s = (x <- postcb_next g pair_iter f s ;; Ok (ran_ok x)).
  Proof.
    assert (H : forall f s, loop (upostcb_body sg) f s = (x <- loop (postcb_body g pair_iter) f s ;; Ok (let '(y, c) := x in (Done y, Some c)))).
    { apply loop_map; clear; intros f [[[st co] pa] an]; unfold upostcb_body, postcb_body; destruct st as [|top rest]; [destruct co; reflexivity|].
      destruct (prec_scan top pa) as [[[[n|] ?] ?]| | |]; cbn [bindR]; try reflexivity; [destruct (g n)|destruct co]; reflexivity. }
    unfold upostcb_next, postcb_next, upostcb_advance, postc_advance_with; destruct (ModelPost.pt_root s) as [r|].
    - destruct (g r) as [v c]; rewrite H; destruct (loop (postcb_body g pair_iter) f _) as [[[[[? ?] ?] ?] ?]| | |]; reflexivity.
    - destruct (tl (pt_anc s)); [reflexivity|].
      rewrite H; destruct (loop (postcb_body g pair_iter) f _) as [[[[[? ?] ?] ?] ?]| | |]; reflexivity.
  Qed.
  Lemma ubfscb_total f s : ubfscb_next sg f s = (x <- bfscb_next g pair_iter f s ;; Ok (ran_ok x)).
  Proof.
    assert (H : forall f s, loop (ubfscb_body sg) f s = (x <- loop (bfscb_body g) f s ;; Ok (Done x))).
    { apply loop_map; clear; intros f s; unfold ubfscb_body, bfscb_body.
      destruct (cmaybe_pop _) as [[[[? ?] ?] ?]| | |]; cbn [bindR]; try reflexivity.
      destruct (bc_queue s) as [|front q]; [reflexivity|]; destruct (bfsc_skip front _) as [[[[n|] ?] cn]| | |]; cbn [bindR]; try reflexivity.
      - destruct (checked_succ cn); cbn [bindR]; try reflexivity; destruct (g n); reflexivity.
      - destruct (cto_next_parent f _) as [[[[? ?] ?] ?]| | |]; cbn [bindR]; try reflexivity; destruct q; reflexivity. }
    unfold ubfscb_next, bfscb_next, ubfscb_advance, bfscb_advance, bfsc_advance_with; destruct (bc_is_root s); [reflexivity|].
    destruct (bc_anc s); [reflexivity|]; destruct (unwrap (bc_children s)); cbn [bindR]; try reflexivity.
    rewrite H; destruct (loop (bfscb_body g) f _); reflexivity.
  Qed.
  Lemma uinco_total f s : uinco_next sg f s = (x <- inco_next g f s ;; Ok (ran_ok x)).
  Proof.
    unfold uinco_next, inco_next, uinco_advance, inco_advance; destruct (loop inco_find_body f _) as [[a|n a]| | |]; cbn [bindR]; try reflexivity.
    rewrite (loop_map (@Done _) (inco_descend_body g) (uinco_descend_body sg)).
    - destruct (loop (inco_descend_body g) f _) as [y| | |]; cbn [bindR]; try reflexivity; destruct (set_returned (io_status y)); reflexivity.
    - clear; intros f [cur s]; unfold uinco_descend_body, inco_descend_body; destruct cur as [n|]; [destruct (g n) as [v [l r]]|]; reflexivity.
  Qed.
  Lemma upostco_with_total {I C} (gv : Nd -> V * C) (into_iter : C -> list I) scan body :
    (forall f s, upostco_body (fun n => Some (gv n)) into_iter scan f s =
       (x <- body f s ;; match x with inl s' => Ok (inl s') | inr r => Ok (inr (Done r)) end)) ->
    forall f s, upostco_next_with (fun n => Some (gv n)) into_iter scan f s =
      (x <- (s' <- postco_advance_with gv into_iter body f s ;; Ok (postco_get s', s')) ;; Ok (ran_ok x)).
  Proof.
    intros Hb f s; pose proof (loop_map (@Done _) body (upostco_body (fun n => Some (gv n)) into_iter scan) Hb) as H.
    unfold upostco_next_with, upostco_advance, postco_advance_with; destruct (pto_root s) as [r|].
    - destruct (gv r) as [v c]; rewrite H; destruct (loop body f _) as [[[? ?] ?]| | |]; reflexivity.
    - destruct (tl (pto_anc s)); [reflexivity|]; rewrite H; destruct (loop body f _) as [[[? ?] ?]| | |]; reflexivity.
  Qed.
  Lemma upostcob_total f s : upostcob_next sg f s = (x <- postcob_next g pair_iter f s ;; Ok (ran_ok x)).
  Proof.
    apply (upostco_with_total g pair_iter prec_scan (postcob_body g pair_iter)); clear; intros f [[st pa] an]; unfold upostco_body, postcob_body.
    destruct st as [|top rest]; [reflexivity|]; destruct (prec_scan top pa) as [[[[n|] ?] ?]| | |]; cbn [bindR]; try reflexivity; destruct (g n); reflexivity.
  Qed.
  Lemma upostco_total (h : Nd -> V * list Nd) f s : upostco_next (fun n => Some (h n)) f s = (x <- postco_next h f s ;; Ok (ran_ok x)).
  Proof.
    apply (upostco_with_total h (fun l => l) step_scan (postco_body h)); clear; intros f [[st pa] an]; unfold upostco_body, postco_body.
    destruct st as [|[|n top] rest]; [reflexivity..|]; cbn [step_scan]; destruct (incr_last pa); cbn [bindR]; try reflexivity; destruct (h n); reflexivity.
  Qed.
End TotalCtx.
