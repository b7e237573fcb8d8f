(** * Traversals with context of trees that are made as they are traversed. *)
From Coq Require Import Permutation.
From Verif Require Import Prelim PrelimFacts Spec SpecFacts SpecObs SpecLazy ModelNode NodeFacts ModelPre ModelPost ModelBfs ModelLazy FuelMono ProofsPlain ProofsPre ProofsPost ProofsNat ProofsLazy.

Section Ctx.
  Context {Nd V C It T C0 : Type}.
  Variable gv : Nd -> V * C.
  Variable into_iter : C -> It.
  Variable scan : It -> list N -> Res (option Nd * It * list N).
  Variable fetch : It -> N -> Res (option Nd * It * N).
  (** The finite tree, whose nodes are labelled with nodes. *)
  Variable gv0 : T -> Nd * C0.
  Variable into0 : C0 -> list (option T).
  Local Notation value := (nval gv).
  Local Notation kids n := (into_iter (nkids gv n)).
  Local Notation lab := (nval gv0).

  Variable U : nat -> It -> list (option T) -> Prop.
  Definition Uc m (t : T) := U m (kids (lab t)) (into0 (nkids gv0 t)).
  Hypothesis U_le : forall m it l, U (S m) it l -> U m it l.
  Hypothesis U_scan : forall m it l path found l' path', U (S m) it l -> prec_scan l path = Ok (found, l', path') ->
    exists it', scan it path = Ok (option_map lab found, it', path') /\ (forall t, found = Some t -> U m it' l' /\ Uc m t).
  Hypothesis U_fetch : forall m it l k found l' k', U (S m) it l -> bfsc_skip l k = Ok (found, l', k') ->
    exists it', fetch it k = Ok (option_map lab found, it', k') /\ (forall t, found = Some t -> U m it' l' /\ Uc m t).

  Lemma Uc_list m its ls : Forall2 (U (S m)) its ls -> Forall2 (U m) its ls.
  Proof. induction 1; constructor; auto. Qed.

  Definition hctx (c : tree_context Nd C0) : tree_context V C :=
    mkCtx (c_path c) (map value (c_ancestors c))
      (match c_children c with Some _ => option_map (nkids gv) (hd_error (rev (c_ancestors c))) | None => None end).
  Definition clast (x : option (tree_context Nd C0)) : list Nd := olast (option_map c_ancestors x).
  Lemma rev_clast Y x l : clast x = l -> l ++ rev (flat_map clast Y) = rev (flat_map clast (Y ++ [x])).
  Proof.
    intros <-; rewrite flat_map_app, rev_app_distr; cbn; rewrite app_nil_r; f_equal.
    destruct x as [l|]; [|reflexivity]; cbn; destruct (rev (c_ancestors l)); reflexivity.
  Qed.
  Lemma clast_last p l n c : clast (Some (mkCtx p (rev (n :: l)) c)) = [n].
  Proof. apply olast_last. Qed.

  (** ** Preorder *)
  Lemma prec_loop F m : forall q1 q2 path anc x r1 path' anc', Forall2 (U (S m)) q2 q1 ->
    loop precb_body F (q1, path, anc) = Ok (x, (r1, path', anc')) ->
    exists r2, loop (lprec_body scan) F (q2, path, map value anc) = Ok (option_map lab x, (r2, path', map value anc')) /\
      Forall2 (U m) r2 r1 /\ (forall t, x = Some t -> Uc m t).
  Proof.
    induction F as [|F IH]; intros q1 q2 path anc x r1 path' anc' HU; [discriminate|]; cbn [loop]; unfold precb_body at 1, lprec_body at 1.
    destruct HU as [|it l q2 q1 Hl HU]; [intros [= <- <- <- <-]; eexists; repeat split; [constructor|discriminate]|].
    destruct (prec_scan l path) as [[[found l'] path1]| | |] eqn:E; try discriminate; cbn [bindR].
    destruct (U_scan _ _ _ _ _ _ _ Hl E) as (it' & -> & Hf); cbn [bindR]; destruct found as [t|]; cbn [option_map].
    - intros [= <- <- <- <-]; destruct (Hf _ eq_refl) as [H1 H2]; eexists; split; [reflexivity|]; split.
      + constructor; [exact H1|apply Uc_list, HU].
      + intros ? [= <-]; exact H2.
    - replace (tl (map value anc)) with (map value (tl anc)) by (destruct anc; reflexivity); apply IH, HU.
  Qed.

  (** The container of the current node. *)
  Definition Uch m (anc : list Nd) (o1 : option C0) (o2 : option C) : Prop :=
    match o1 with
    | Some c0 => match anc with n :: _ => o2 = Some (nkids gv n) /\ U m (kids n) (into0 c0) | [] => True end
    | None => o2 = None
    end.

  Definition Rprec m (Y : list (option (tree_context Nd C0))) (s1 : prec T Nd (option T) C0) (s2 : lprec Nd V C It) : Prop :=
    lpc_log s2 = rev (flat_map clast Y) /\ Forall2 (U m) (lpc_stack s2) (pc_stack s1) /\ lpc_path s2 = pc_path s1 /\
    lpc_anc s2 = map value (pc_anc s1) /\ lpc_root s2 = option_map lab (pc_root s1) /\
    (forall t, pc_root s1 = Some t -> Uc m t) /\ Uch m (pc_anc s1) (pc_children s1) (lpc_children s2).

  Lemma Uch_le m anc o1 o2 : Uch (S m) anc o1 o2 -> Uch m anc o1 o2.
  Proof. unfold Uch; destruct o1; [|auto]; destruct anc; [auto|]; intros []; auto. Qed.

  Lemma hctx_get p n l o1 m o2 : Uch m (n :: l) o1 o2 ->
    mkCtx p (rev (value n :: map value l)) o2 = hctx (mkCtx p (rev (n :: l)) o1).
  Proof.
    unfold Uch, hctx; cbn [c_path c_ancestors c_children]; intros H; f_equal; [rewrite map_rev; reflexivity|].
    destruct o1; [destruct H as [-> _]|exact H]; rewrite rev_involutive; reflexivity.
  Qed.

  Lemma prec_follow F m Y s1 s2 x s1' : Rprec (S m) Y s1 s2 -> precb_next gv0 into0 F s1 = Ok (x, s1') ->
    exists s2', lprec_next gv into_iter scan F s2 = Ok (option_map hctx x, s2') /\ Rprec m (Y ++ [x]) s1' s2'.
  Proof.
    intros (Hlog & Hq & Hp & Ha & Hr & Ht & Hc); unfold precb_next, precb_advance, prec_advance_with, lprec_next, lprec_advance.
    rewrite Hr; destruct (pc_root s1) as [t|] eqn:Er; cbn [option_map].
    - rewrite (gv_eq gv0 t), (gv_eq gv (lab t)); cbn [bindR]; intros [= <- <-]; eexists; unfold prec_get; cbn [lpc_anc pc_anc lpc_path pc_path lpc_children pc_children].
      split; [rewrite Ha, Hp; f_equal; f_equal; cbn [option_map]; f_equal; apply (hctx_get _ (lab t) _ _ m); split; [reflexivity|apply U_le, (Ht _ eq_refl)]|].
      split; [cbn [lpc_log]; rewrite Hlog; apply (rev_clast Y _ [lab t]), clast_last|].
      split; [apply Uc_list, Hq|]; split; [reflexivity|]; split; [reflexivity|].
      split; [reflexivity|]; split; [discriminate|]; split; [reflexivity|apply U_le, (Ht _ eq_refl)].
    - rewrite Ha; destruct (pc_anc s1) as [|n anc] eqn:Ea; cbn [map].
      + cbn [bindR]; intros [= <- <-]; exists s2; unfold prec_get; rewrite Ha, Ea; split; [reflexivity|].
        split; [rewrite Hlog; apply (rev_clast Y None []); reflexivity|].
        split; [apply Uc_list, Hq|]; split; [exact Hp|]; split; [rewrite Ha, Ea; reflexivity|]; split; [rewrite Hr, Er; reflexivity|].
        split; [rewrite Er; discriminate|rewrite Ea; apply Uch_le, Hc].
      + assert (Hend : forall q1 q2 path anc0 s, Forall2 (U (S m)) q2 q1 ->
          ('(next, (stack, path, anc)) <- loop precb_body F (q1, path, anc0) ;;
            match next with
            | Some node => let '(value, children) := gv0 node in Ok (mkPrec None stack path (value :: anc) (Some children))
            | None => Ok (mkPrec None stack path [] None)
            end) = Ok s ->
          exists s2', ('(next, (stack, path, anc)) <- loop (lprec_body scan) F (q2, path, map value anc0) ;;
            match next with
            | Some node => let '(value, children) := gv node in Ok (mkLprec (node :: lpc_log s2) None stack path (value :: anc) (Some children))
            | None => Ok (mkLprec (lpc_log s2) None stack path [] None)
            end) = Ok s2' /\ match lpc_anc s2' with [] => None | anc => Some (mkCtx (rev (lpc_path s2')) (rev anc) (lpc_children s2')) end = option_map hctx (prec_get s) /\
            Rprec m (Y ++ [prec_get s]) s s2').
        { clear Hq Hp Ha Hr Ht Hc Er Ea; intros q1 q2 path anc0 s HU.
          destruct (loop precb_body F (q1, path, anc0)) as [[x0 [[r1 path'] anc']]| | |] eqn:E; try discriminate; cbn [bindR].
          destruct (prec_loop F m _ _ _ _ _ _ _ _ HU E) as (r2 & -> & H1 & H2); cbn [bindR]; destruct x0 as [t|]; cbn [option_map].
          - rewrite (gv_eq gv0 t), (gv_eq gv (lab t)); intros [= <-]; eexists; split; [reflexivity|].
            unfold prec_get; cbn [lpc_anc pc_anc lpc_path pc_path lpc_children pc_children].
            split; [cbn [option_map]; f_equal; apply (hctx_get _ (lab t) _ _ m); split; [reflexivity|apply (H2 _ eq_refl)]|].
            split; [cbn [lpc_log]; rewrite Hlog; apply (rev_clast Y _ [lab t]), clast_last|].
            split; [exact H1|]; split; [reflexivity|]; split; [reflexivity|].
            split; [reflexivity|]; split; [discriminate|]; split; [reflexivity|apply (H2 _ eq_refl)].
          - intros [= <-]; eexists; split; [reflexivity|]; split; [reflexivity|].
            split; [cbn [lpc_log]; rewrite Hlog; apply (rev_clast Y None []); reflexivity|].
            split; [exact H1|]; split; [reflexivity|]; split; [reflexivity|]; split; [reflexivity|]; split; [discriminate|reflexivity]. }
        rewrite Hp; unfold Uch in Hc; destruct (pc_children s1) as [c0|] eqn:Ec; [destruct Hc as [-> Hc]|rewrite Hc].
        * match goal with |- bindR ?X _ = _ -> _ => destruct X as [s| | |] eqn:E; try discriminate end; cbn [bindR]; intros [= <- <-].
          destruct (Hend _ (kids n :: lpc_stack s2) _ (n :: anc) s (Forall2_cons (R := U (S m)) _ _ Hc Hq) E) as (s2' & E2 & H1 & H2).
          exists s2'; cbn [map] in E2; rewrite E2; cbn [bindR]; rewrite H1; auto.
        * match goal with |- bindR ?X _ = _ -> _ => destruct X as [s| | |] eqn:E; try discriminate end; cbn [bindR]; intros [= <- <-].
          destruct (Hend _ (lpc_stack s2) _ anc s Hq E) as (s2' & E2 & H1 & H2).
          exists s2'; cbn [tl]; rewrite E2; cbn [bindR]; rewrite H1; auto.
  Qed.

  Lemma more_lprec s : more (fun f => lprec_next gv into_iter scan f s).
  Proof. unfold lprec_next, lprec_advance; more_tac. Qed.

  (** ** Breadth first *)
  Definition Lbfsc (s1 : bfsc Nd (option T) C0) (s2 : lbfsc Nd V C It) : Prop :=
    lbc_is_root s2 = bc_is_root s1 /\ lbc_anc s2 = map value (bc_anc s1) /\ lbc_cache s2 = cnm value (bc_cache s1) /\
    lbc_stack s2 = map (cnm value) (bc_stack s1) /\ lbc_path s2 = bc_path s1 /\ lbc_counter s2 = bc_counter s1.
  Definition cgot (l : list Nd) : list Nd := match l with [] => [] | n :: _ => [n] end.

  Lemma bfsc_loop F m : forall s1 s2 s1', Lbfsc s1 s2 -> Forall2 (U (S m)) (lbc_queue s2) (bc_queue s1) ->
    bc_children s1 = None -> lbc_children s2 = None ->
    loop (bfscb_body gv0) F s1 = Ok s1' ->
    exists s2', loop (lbfsc_body gv fetch) F s2 = Ok s2' /\ Lbfsc s1' s2' /\ Forall2 (U m) (lbc_queue s2') (bc_queue s1') /\
      lbc_log s2' = cgot (bc_anc s1') ++ lbc_log s2 /\ bc_is_root s1' = bc_is_root s1 /\ Uch m (bc_anc s1') (bc_children s1') (lbc_children s2').
  Proof.
    induction F as [|F IH]; intros s1 s2 s1' HL HU Hn1 Hn2; [discriminate|]; cbn [loop]; unfold bfscb_body at 1, lbfsc_body at 1.
    destruct HL as (Hr & Hi & Hc & Hs & Hp & Hk).
    destruct (cmaybe_pop (bc_anc s1, bc_path s1, bc_cache s1, bc_stack s1)) as [[[[anc path] cache] stack]| | |] eqn:E; try discriminate.
    rewrite Hi, Hc, Hs, Hp, Hk; pose proof (maybe_pop_nm value _ _ E) as E2; cbn [pnm] in E2; rewrite E2; cbn [bindR]; clear E E2.
    destruct HU as [|it l q2 q1 Hl HU]; [discriminate|].
    destruct (bfsc_skip l (bc_counter s1)) as [[[found l'] k]| | |] eqn:E; try discriminate; cbn [bindR].
    destruct (U_fetch _ _ _ _ _ _ _ Hl E) as (it' & -> & Hf); cbn [bindR]; clear E; destruct found as [t|]; cbn [option_map].
    - destruct (Hf _ eq_refl) as [H1 H2]; destruct (checked_succ k) as [k'| | |]; try discriminate; cbn [bindR].
      rewrite (gv_eq gv0 t), (gv_eq gv (lab t)); intros [= <-]; eexists; split; [reflexivity|].
      split; [split; [exact Hr|split; [reflexivity|split; [reflexivity|split; [reflexivity|split; reflexivity]]]]|].
      split; [constructor; [exact H1|apply Uc_list, HU]|]; split; [reflexivity|]; split; [reflexivity|].
      split; [reflexivity|exact H2].
    - destruct (cto_next_parent F (anc, path, cache, stack)) as [[[[anc' path'] cache'] stack']| | |] eqn:E; try discriminate.
      pose proof (to_next_nm value _ _ _ E) as E2; cbn [pnm] in E2; rewrite E2; cbn [bindR]; clear E E2.
      destruct HU as [|it2 l2 q2 q1 Hl2 HU].
      + intros [= <-]; eexists; split; [reflexivity|].
        split; [split; [exact Hr|split; [reflexivity|split; [reflexivity|split; [reflexivity|split; reflexivity]]]]|].
        split; [constructor|]; split; [reflexivity|]; split; [reflexivity|].
        cbn [bc_children lbc_children bc_anc]; rewrite Hn1; exact Hn2.
      + intros E; apply IH with (s2 := mkLbfsc (lbc_log s2) (lbc_is_root s2) (cnm value cache') (map (cnm value) stack') (it2 :: q2) path' (map value anc') (lbc_children s2) 0) in E;
          [exact E|split; [exact Hr|split; [reflexivity|split; [reflexivity|split; [reflexivity|split; reflexivity]]]]|constructor; assumption|exact Hn1|exact Hn2].
  Qed.

  Definition Rbfsc m (Y : list (option (tree_context Nd C0))) (s1 : bfsc Nd (option T) C0) (s2 : lbfsc Nd V C It) : Prop :=
    Lbfsc s1 s2 /\ Forall2 (U m) (lbc_queue s2) (bc_queue s1) /\ Uch m (bc_anc s1) (bc_children s1) (lbc_children s2) /\
    if bc_is_root s1 then Y = [] /\ lbc_log s2 = bc_anc s1 /\ length (bc_anc s1) = 1 else lbc_log s2 = rev (flat_map clast Y).

  Lemma bfsc_follow F m Y s1 s2 x s1' : Rbfsc (S m) Y s1 s2 -> bfscb_next gv0 into0 F s1 = Ok (x, s1') ->
    exists s2', lbfsc_next gv into_iter fetch F s2 = Ok (option_map hctx x, s2') /\ Rbfsc m (Y ++ [x]) s1' s2'.
  Proof.
    intros (HL & Hq & Hc & Hlog); unfold bfscb_next, bfscb_advance, bfsc_advance_with, lbfsc_next, lbfsc_advance.
    pose proof HL as (Hr & Hi & Hca & Hs & Hp & Hk); rewrite Hr; destruct (bc_is_root s1) eqn:Er.
    - cbn [bindR]; intros [= <- <-]; destruct Hlog as (-> & Hlog & Hlen).
      unfold bfsc_get; cbn [bc_anc lbc_anc bc_path lbc_path bc_children lbc_children].
      destruct (bc_anc s1) as [|n [|b its]] eqn:Ea; try discriminate; rewrite Hi; cbn [map].
      eexists; split; [cbn [option_map]; rewrite Hp; f_equal; f_equal; f_equal; apply (hctx_get _ n [] _ (S m)); exact Hc|].
      split; [split; [reflexivity|split; [reflexivity|split; [assumption|split; [assumption|split; [first [reflexivity|assumption]|assumption]]]]]|].
      split; [apply Uc_list, Hq|]; split; [apply Uch_le; exact Hc|exact Hlog].
    - rewrite Hi; destruct (bc_anc s1) as [|n anc] eqn:Ea; cbn [map].
      + cbn [bindR]; intros [= <- <-]; exists s2; unfold bfsc_get; rewrite Hi, Ea; split; [reflexivity|].
        split; [exact HL|]; split; [apply Uc_list, Hq|]; split; [rewrite Ea; apply Uch_le, Hc|].
        rewrite Er, Hlog; apply (rev_clast Y None []); reflexivity.
      + unfold Uch in Hc; destruct (bc_children s1) as [c0|] eqn:Ec; cbn [unwrap bindR]; [|discriminate].
        destruct Hc as [-> Hc]; cbn [unwrap bindR].
        match goal with |- bindR ?X _ = _ -> _ => destruct X as [t1| | |] eqn:E; try discriminate end; cbn [bindR]; intros [= <- <-].
        eapply (bfsc_loop F m _ (mkLbfsc (lbc_log s2) false (lbc_cache s2) (lbc_stack s2) (lbc_queue s2 ++ [kids n]) (lbc_path s2) (map value (n :: anc)) None (lbc_counter s2))) in E.
        * destruct E as (t2 & E2 & HL' & Hq' & Hlog' & Hr' & Hc'); cbn [map] in E2; rewrite E2; cbn [bindR]; exists t2; split.
          -- pose proof HL' as (_ & Hi' & _ & _ & Hp' & _); rewrite Hi', Hp'; unfold bfsc_get; destruct (bc_anc t1) as [|a l] eqn:Ea'; [reflexivity|].
             cbn [map option_map]; f_equal; f_equal; f_equal; apply (hctx_get _ a l _ m); exact Hc'.
          -- split; [exact HL'|]; split; [exact Hq'|]; split; [exact Hc'|].
             rewrite Hr', Hlog'; cbn [bc_is_root lbc_log]; rewrite Hlog; apply rev_clast; unfold bfsc_get; destruct (bc_anc t1) as [|a l]; [reflexivity|apply clast_last].
        * split; [reflexivity|split; [rewrite ?Ea; reflexivity|split; [assumption|split; [assumption|split; assumption]]]].
        * apply Forall2_app; [exact Hq|constructor; [exact Hc|constructor]].
        * reflexivity.
        * reflexivity.
  Qed.

  Lemma more_lbfsc s : more (fun f => lbfsc_next gv into_iter fetch f s).
  Proof.
    unfold lbfsc_next, lbfsc_advance; destruct (lbc_is_root s); [more_tac|]; destruct (lbc_anc s); [more_tac|].
    destruct (lbc_children s) as [c|]; cbn [unwrap bindR]; [|apply more_const].
    apply (more_bind (fun f => loop _ f _)); [|intros; apply more_const].
    apply more_loop; intros t; unfold lbfsc_body; destruct (cmaybe_pop _) as [[[[? ?] ?] ?]| | |]; cbn [bindR]; try apply more_const.
    destruct (lbc_queue t); [apply more_const|]; destruct (fetch i _) as [[[[n|] ?] ?]| | |]; cbn [bindR]; try apply more_const.
    apply (more_bind (fun f => cto_next_parent f _) (fun _ x => _)); [apply more_cto_next_parent|intros; apply more_const].
  Qed.

  (** ** Postorder *)
  Section PostCtx.
    (** The stacks of iterators, and how many iterators they may still be asked to come to the end of. *)
    Variable W : nat -> list It -> list (list (option T)) -> Prop.
    Hypothesis W_shape : forall m q2 q1, W m q2 q1 -> length q2 = length q1.
    Hypothesis W_nil : forall m, W m [] [].
    Hypothesis W_le : forall m q2 q1, W (S m) q2 q1 -> W m q2 q1.
    Hypothesis W_scan : forall m it q2 l q1 path found l' path', W (S m) (it :: q2) (l :: q1) -> prec_scan l path = Ok (found, l', path') ->
      exists it', scan it path = Ok (option_map lab found, it', path') /\
        match found with
        | Some t => W (S m) (kids (lab t) :: it' :: q2) (into0 (nkids gv0 t) :: l' :: q1)
        | None => W m q2 q1
        end.

    Lemma postc_loop F m : forall q1 q2 conts path anc q1' conts' path' anc' c log, W (S m) q2 q1 -> length conts = length anc ->
      loop (postcb_body gv0 into0) F (q1, conts, path, anc) = Ok ((q1', conts', path', anc'), c) ->
      exists q2' new n anc'', loop (lpostc_body gv into_iter scan) F (log, q2, map (nkids gv) anc, path, map value anc) =
          Ok ((new ++ log, q2', map (nkids gv) anc'', path', map value anc'), nkids gv n) /\
        anc' = n :: anc'' /\ W m q2' q1' /\ anc' = new ++ anc /\ length conts' = length anc''.
    Proof.
      induction F as [|F IH]; intros q1 q2 conts path anc q1' conts' path' anc' c log HU Hlen; [discriminate|]; cbn [loop]; unfold postcb_body at 1, lpostc_body at 1.
      destruct q2 as [|it q2], q1 as [|l q1]; try discriminate (W_shape _ _ _ HU).
      - destruct conts as [|c0 conts]; [discriminate|]; destruct anc as [|n anc]; [discriminate|]; injection Hlen as Hlen; cbn [map].
        intros [= <- <- <- <- <-]; exists [], [], n, anc; repeat split; [apply W_nil|exact Hlen].
      - destruct (prec_scan l path) as [[[found l'] path1]| | |] eqn:E; try discriminate; cbn [bindR].
        destruct (W_scan _ _ _ _ _ _ _ _ _ HU E) as (it' & -> & Hf); cbn [bindR]; destruct found as [t|]; cbn [option_map].
        + rewrite (gv_eq gv0 t), (gv_eq gv (lab t)); cbn [bindR]; intros E2.
          apply (IH _ (kids (lab t) :: it' :: q2) (nkids gv0 t :: conts) _ (lab t :: anc) _ _ _ _ _ (lab t :: log) Hf ltac:(cbn; rewrite Hlen; reflexivity)) in E2.
          destruct E2 as (q2' & new & n & anc'' & E2 & H3 & H4 & H5 & H6).
          exists q2', (new ++ [lab t]), n, anc''; rewrite <- !app_assoc; repeat split; try assumption; exact E2.
        + destruct conts as [|c0 conts]; [discriminate|]; destruct anc as [|n anc]; [discriminate|]; injection Hlen as Hlen; cbn [map].
          intros [= <- <- <- <- <-]; exists q2, [], n, anc; repeat split; [exact Hf|exact Hlen].
    Qed.

    Definition Rpostc (m : nat) (Y : list (option (tree_context Nd C0))) (s1 : postc T Nd (option T) C0) (s2 : lpostc Nd V C It) : Prop :=
      Permutation (ltc_log s2) (flat_map clast Y ++ tl (pt_anc s1)) /\
      ltc_conts s2 = map (nkids gv) (tl (pt_anc s1)) /\ length (pt_conts s1) = length (tl (pt_anc s1)) /\
      ltc_path s2 = pt_path s1 /\ ltc_anc s2 = map value (pt_anc s1) /\ ltc_root s2 = option_map lab (pt_root s1) /\
      match pt_root s1 with
      | Some t => pt_anc s1 = [] /\ W m (kids (lab t) :: ltc_stack s2) (into0 (nkids gv0 t) :: pt_stack s1)
      | None => W m (ltc_stack s2) (pt_stack s1)
      end.

    Lemma postc_follow F m Y s1 s2 x s1' : Rpostc (S m) Y s1 s2 -> postcb_next gv0 into0 F s1 = Ok (x, s1') ->
      exists s2', lpostc_next gv into_iter scan F s2 = Ok (option_map hctx x, s2') /\ Rpostc m (Y ++ [x]) s1' s2'.
    Proof.
      intros (Hlog & Hcs & Hlen & Hp & Ha & Hr & Hq); unfold postcb_next, postc_advance_with, lpostc_next, lpostc_advance; rewrite Hr, Hp, Ha, Hcs.
      assert (Hend : forall q1 q2 conts path anc log s, W (S m) q2 q1 -> length conts = length anc -> Permutation log (flat_map clast Y ++ anc) ->
        ('((stack, conts, path, anc), c) <- loop (postcb_body gv0 into0) F (q1, conts, path, anc) ;; Ok (mkPostc None stack conts path anc (Some c))) = Ok s ->
        exists s2', ('((log, stack, conts, path, anc), c) <- loop (lpostc_body gv into_iter scan) F (log, q2, map (nkids gv) anc, path, map value anc) ;;
            Ok (mkLpostc log None stack conts path anc (Some c))) = Ok s2' /\
          match ltc_anc s2' with [] => None | anc => Some (mkCtx (rev (ltc_path s2')) (rev anc) (ltc_children s2')) end = option_map hctx (postc_get s) /\
          Rpostc m (Y ++ [postc_get s]) s s2').
      { clear Hq Hp Ha Hr Hlog Hlen Hcs; intros q1 q2 conts path anc log s HU Hlen HP.
        destruct (loop (postcb_body gv0 into0) F (q1, conts, path, anc)) as [[[[[q1' conts'] path'] anc'] c]| | |] eqn:E; try discriminate; cbn [bindR]; intros [= <-].
        destruct (postc_loop F m _ _ _ _ _ _ _ _ _ _ log HU Hlen E) as (q2' & new & n & anc'' & -> & H1 & H2 & H3 & H4); cbn [bindR].
        eexists; split; [reflexivity|]; unfold postc_get; cbn [ltc_anc ltc_path ltc_children pt_anc pt_path pt_children]; rewrite H1 in *; cbn [map].
        split; [cbn [option_map hctx]; unfold hctx; cbn [c_path c_ancestors c_children]; rewrite rev_involutive; cbn [hd_error option_map]; rewrite map_rev; reflexivity|].
        unfold Rpostc; cbn [ltc_log ltc_stack ltc_conts ltc_path ltc_anc ltc_root pt_stack pt_conts pt_path pt_anc pt_root tl].
        split; [|split; [reflexivity|split; [exact H4|split; [reflexivity|split; [reflexivity|split; [reflexivity|exact H2]]]]]].
        rewrite HP, flat_map_app; cbn [flat_map]; rewrite app_nil_r, <- app_assoc, clast_last.
        rewrite Permutation_app_swap_app; apply Permutation_app_head; rewrite <- H3; apply Permutation_refl. }
      destruct (pt_root s1) as [t|] eqn:Er; cbn [option_map].
      - destruct Hq as [Ha0 Hq]; rewrite (gv_eq gv0 t), (gv_eq gv (lab t)), Ha0 in *; cbn [map tl] in *.
        match goal with |- bindR ?X _ = _ -> _ => destruct X as [s| | |] eqn:E; try discriminate end; cbn [bindR]; intros [= <- <-].
        destruct (pt_conts s1); [|discriminate].
        eapply (Hend _ (kids (lab t) :: ltc_stack s2) _ _ [lab t] (lab t :: ltc_log s2) s Hq) in E;
          [|reflexivity|rewrite app_nil_r in Hlog; rewrite Hlog; apply Permutation_cons_append].
        destruct E as (s2' & E2 & H1 & H2); exists s2'; cbn [map] in E2; rewrite E2; cbn [bindR]; rewrite H1; auto.
      - replace (tl (map value (pt_anc s1))) with (map value (tl (pt_anc s1))) by (destruct (pt_anc s1); reflexivity).
        destruct (tl (pt_anc s1)) as [|a anc] eqn:Ea; cbn [map].
        + cbn [bindR]; intros [= <- <-]; eexists; split; [reflexivity|]; unfold Rpostc, postc_get; cbn [ltc_log ltc_stack ltc_conts ltc_path ltc_anc ltc_root pt_stack pt_conts pt_path pt_anc pt_root tl].
          split; [rewrite flat_map_app; cbn [flat_map clast option_map olast]; rewrite !app_nil_r in *; exact Hlog|].
          split; [reflexivity|]; split; [exact Hlen|]; split; [reflexivity|]; split; [reflexivity|]; split; [reflexivity|apply W_le, Hq].
        + match goal with |- bindR ?X _ = _ -> _ => destruct X as [s| | |] eqn:E; try discriminate end; cbn [bindR]; intros [= <- <-].
          destruct (Hend _ _ _ _ _ _ _ Hq Hlen Hlog E) as (s2' & E2 & H1 & H2); exists s2'; cbn [map] in E2; rewrite E2; cbn [bindR]; rewrite H1; auto.
    Qed.

    Lemma more_lpostc s : more (fun f => lpostc_next gv into_iter scan f s).
    Proof. unfold lpostc_next, lpostc_advance; more_tac. Qed.
  End PostCtx.
End Ctx.
