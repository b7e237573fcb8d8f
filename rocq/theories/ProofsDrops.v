(** * ProofsDrops: every value taken by a breadth-first context iterator is accounted for. *)
From Coq Require Import Permutation.
From Verif Require Import Prelim PrelimFacts Spec SpecFacts SpecObs ModelNode NodeFacts Slots ModelBfs ModelOwn ModelDrops ProofsPlain BfsCore ProofsBfs FuelMono PermTac ProofsPre.

Section Cells.
  Context {V : Type}.

  Definition dvals (l : list (option (cnode V))) : list V := flat_map (fun o => match o with Some c => cn_values c | None => [] end) l.
  Definition svals (s : cdfs_st (V:=V)) : list V := let '(anc, _, cache, stack) := s in anc ++ cn_values cache ++ flat_map cn_values stack.

  Lemma cn_values_eq c : cn_values c = opt_value (cn_value c) ++ dvals (cn_children (V:=V) c).
  Proof. destruct c; reflexivity. Qed.
  Lemma dvals_app a b : dvals (a ++ b) = dvals a ++ dvals b.
  Proof. apply flat_map_app. Qed.

  Definition blank (c : cnode V) : Prop := cn_value c = None.
  Definition okstack (s : cdfs_st (V:=V)) : Prop := let '(_, _, cache, stack) := s in Forall blank stack.

  Lemma set_blank c l : blank c -> blank (cn_set_children c l).
  Proof. destruct c; exact (fun H => H). Qed.

  (** Values under [set_top_children]. *)
  Lemma set_top_vals stack cache l : let '(stack', cache') := set_top_children stack cache l in
    Permutation (dvals (top_children stack cache) ++ cn_values cache' ++ flat_map cn_values stack') (dvals l ++ cn_values cache ++ flat_map cn_values stack).
  Proof.
    destruct stack as [|x us]; cbn [set_top_children top_children].
    - destruct cache as [v i ch]; cbn [cn_set_children cn_children flat_map]; rewrite !cn_values_eq; cbn [cn_value cn_children]; perm.
    - destruct x as [v i ch]; cbn [cn_set_children cn_children flat_map]; rewrite !cn_values_eq; cbn [cn_value cn_children]; perm.
  Qed.
  Lemma set_top_ok stack cache l : Forall blank stack -> Forall blank (fst (set_top_children stack cache l)).
  Proof. destruct stack as [|x us]; cbn; [auto|]; intros H; inversion H; subst; constructor; [apply set_blank; assumption|assumption]. Qed.

  Definition slift {X} (g : dlog V) (x : X + X) : (dlog V * X) + (dlog V * X) := match x with inl s => inl (g, s) | inr s => inr (g, s) end.

  Lemma body_log sd f g s : okstack s ->
    dadvance_dfs_body sd f (g, s) = Rmap (slift g) (cadvance_dfs_body sd f s) /\
    forall x, cadvance_dfs_body sd f s = Ok x -> let s' := match x with inl s' | inr s' => s' end in okstack s' /\ Permutation (svals s') (svals s).
  Proof.
    destruct s as [[[anc path] cache] stack]; intros Hok; cbn [okstack] in Hok; unfold dadvance_dfs_body, cadvance_dfs_body.
    destruct (top_children stack cache) as [|child rest] eqn:Et; [split; [reflexivity|intros x [= <-]; cbn; auto]|].
    pose proof (set_top_vals stack cache rest) as Hv; pose proof (set_top_ok stack cache rest Hok) as Hok1.
    destruct (set_top_children stack cache rest) as [stack1 cache1] eqn:Es; cbn [fst] in Hok1; rewrite Et in Hv.
    destruct child as [[value seg children]|].
    - cbn [dvals flat_map] in Hv; rewrite (cn_values_eq (CNode _ _ _)) in Hv; cbn [cn_value cn_children] in Hv; fold dvals in Hv.
      change (flat_map (fun o => match o with Some c => cn_values c | None => [] end) rest) with (dvals rest) in Hv.
      destruct value as [v|]; cbn [assume_init bindR Rmap]; [|split; [reflexivity|discriminate]].
      destruct (negb _ && _); (split; [reflexivity|]); intros x [= <-]; cbn [okstack svals]; (split; [constructor; [reflexivity|exact Hok1]|]);
        cbn [flat_map]; rewrite (cn_values_eq (CNode _ _ _)); cbn [cn_value cn_children opt_value] in *; perm with Hv.
    - cbn [dvals flat_map] in Hv; rewrite app_nil_l in Hv.
      change (flat_map (fun o => match o with Some c => cn_values c | None => [] end) rest) with (dvals rest) in Hv.
      apply Permutation_app_inv_l in Hv.
      set (q := match rest with [] => (stack1, cache1) | _ => set_top_children stack1 cache1 (rest ++ [None]) end).
      assert (Hq : Forall blank (fst q) /\ Permutation (cn_values (snd q) ++ flat_map cn_values (fst q)) (cn_values cache ++ flat_map cn_values stack)).
      { unfold q; destruct rest as [|o rest]; [split; [exact Hok1|exact Hv]|]; split; [apply set_top_ok, Hok1|].
        pose proof (set_top_vals stack1 cache1 ((o :: rest) ++ [None])) as Hv2.
        destruct (set_top_children stack1 cache1 ((o :: rest) ++ [None])) as [stack2 cache2]; cbn [fst snd].
        assert (E1 : top_children stack1 cache1 = o :: rest).
        { destruct stack as [|y ys]; cbn [set_top_children] in Es; injection Es as <- <-; [destruct cache|destruct y]; reflexivity. }
        rewrite E1, dvals_app in Hv2; change (dvals [None]) with (@nil V) in Hv2; rewrite app_nil_r in Hv2; apply Permutation_app_inv_l in Hv2.
        rewrite Hv2; exact Hv. }
      destruct q as [stack2 cache2]; cbn [fst snd] in Hq; destruct Hq as [Hok2 Hv2]; clear Hv Hok1 Es.
      assert (Htail : forall a p stack3, Forall blank (tl stack3) ->
        Permutation (a ++ cn_values cache2 ++ flat_map cn_values stack3) (svals (anc, path, cache, stack)) ->
        match stack3 with
        | [] => True
        | popped :: stack' => let '(stack'', cache') := set_top_children stack' cache2 (top_children stack' cache2 ++ [Some popped]) in
            okstack (a, p, cache', stack'') /\ Permutation (svals (a, p, cache', stack'')) (svals (anc, path, cache, stack))
        end).
      { intros a p [|popped stack'] Hb Hp; [exact I|]; cbn [tl] in Hb.
        pose proof (set_top_vals stack' cache2 (top_children stack' cache2 ++ [Some popped])) as Hv3.
        pose proof (set_top_ok stack' cache2 (top_children stack' cache2 ++ [Some popped]) Hb) as Hb3.
        destruct (set_top_children stack' cache2 _) as [stack3 cache3]; split; [exact Hb3|].
        rewrite dvals_app in Hv3; cbn [dvals flat_map] in Hv3; rewrite app_nil_r in Hv3; cbn [flat_map] in Hp; cbn [svals].
        cbn [svals] in Hp; perm with Hv3, Hp. }
      destruct (1 <? length anc).
      + destruct stack2 as [|[old i ch] stack2]; [split; [reflexivity|discriminate]|].
        destruct anc as [|v anc']; [split; [reflexivity|discriminate]|].
        destruct path as [|p path']; [split; [reflexivity|discriminate]|].
        inversion Hok2; subst; match goal with H : blank (CNode _ _ _) |- _ => unfold blank in H; cbn in H; subst old end.
        cbn [bindR opt_value]; change (log_leak [] g) with (mkLog (dropped g) (leaked g)).
        replace (mkLog (dropped g) (leaked g)) with g by (destruct g; reflexivity).
        specialize (Htail anc' path' (CNode (Some v) p ch :: stack2)); cbn [tl] in Htail.
        destruct (set_top_children stack2 cache2 _) as [stack3 cache3] eqn:E3.
        split; [reflexivity|]; intros x [= <-]; apply Htail; [assumption|].
        cbn [flat_map svals] in *; rewrite (cn_values_eq (CNode None _ _)) in Hv2; rewrite (cn_values_eq (CNode (Some v) _ _)); cbn [cn_value cn_children opt_value] in Hv2 |- *; perm with Hv2.
      + cbn [bindR]; destruct stack2 as [|popped stack2].
        * split; [reflexivity|]; intros x [= <-]; split; [exact Hok2|]; cbn [svals]; apply Permutation_app_head, Hv2.
        * specialize (Htail anc path (popped :: stack2)); cbn [tl] in Htail.
          destruct (set_top_children stack2 cache2 _) as [stack3 cache3] eqn:E3.
          split; [reflexivity|]; intros x [= <-]; apply Htail; [inversion Hok2; assumption|]; cbn [svals]; apply Permutation_app_head, Hv2.
  Qed.

  Lemma advance_log f g s : okstack s -> dadvance_dfs f (g, s) = Rmap (pair g) (cadvance_dfs f s) /\
    forall s', cadvance_dfs f s = Ok s' -> okstack s' /\ Permutation (svals s') (svals s).
  Proof.
    unfold dadvance_dfs, cadvance_dfs; destruct s as [[[anc path] cache] stack]; generalize (length anc) as sd; intros sd.
    generalize (anc, path, cache, stack) as s; clear anc path cache stack.
    induction f as [|f IH]; intros s Hok; [split; [reflexivity|discriminate]|].
    cbn [loop]; destruct (body_log sd f g s Hok) as [E Hx]; rewrite E.
    destruct (cadvance_dfs_body sd f s) as [[s1|s1]| | |]; cbn [Rmap bindR slift]; try (split; [reflexivity|discriminate]).
    - destruct (Hx _ eq_refl) as [Hok1 Hp1]; destruct (IH s1 Hok1) as [E1 H1]; split; [exact E1|].
      intros s' Hs; destruct (H1 s' Hs) as [? Hp]; split; [assumption|rewrite Hp; exact Hp1].
    - split; [reflexivity|]; intros s' [= <-]; exact (Hx _ eq_refl).
  Qed.

  (** What [drop_finished] leaks and drops. *)
  Fixpoint fin_leak (stack : list (cnode V)) : list V :=
    match stack with
    | [] => []
    | last :: stack' => if 1 <? length (cn_children last) then [] else cn_values last ++ fin_leak stack'
    end.

  Definition gvals (g : dlog V) : list V := dropped g ++ leaked g.
  Lemma drop_log stack : forall g anc path, let '(anc', path', stack') := cdrop_finished anc path stack in
    exists g', ddrop_finished g anc path stack = (g', anc', path', stack') /\ (fin_leak stack = [] -> leaked g' = leaked g) /\
      Permutation (gvals g' ++ anc' ++ flat_map cn_values stack') (gvals g ++ anc ++ flat_map cn_values stack) /\
      (Forall blank stack -> Forall blank stack').
  Proof.
    induction stack as [|last stack IH]; intros g anc path; cbn [cdrop_finished ddrop_finished fin_leak].
    - exists g; repeat split; auto.
    - destruct (1 <? length (cn_children last)); [exists g; repeat split; auto|].
      specialize (IH (log_drop (opt_value (hd_error anc)) (log_leak (cn_values last) g)) (tl anc) (tl path)).
      destruct (cdrop_finished (tl anc) (tl path) stack) as [[anc' path'] stack'].
      destruct IH as (g' & E & Hl & Hp & Hb); exists g'; split; [exact E|]; split; [|split; [|intros H; inversion H; auto]].
      + intros Hf; apply app_eq_nil in Hf as [H1 H2]; rewrite (Hl H2); cbn; rewrite H1; reflexivity.
      + unfold gvals, log_drop, log_leak in *; cbn [dropped leaked flat_map] in *.
        destruct anc as [|a anc]; cbn [hd_error tl opt_value] in *; perm with Hp.
  Qed.

  Lemma next_parent_log f g s : okstack s -> (let '(_, _, cache, stack) := s in top_children stack cache = [] -> fin_leak stack = []) ->
    forall s', cto_next_parent f s = Ok s' -> exists g', dto_next_parent f (g, s) = Ok (g', s') /\ leaked g' = leaked g /\
      okstack s' /\ Permutation (gvals g' ++ svals s') (gvals g ++ svals s).
  Proof.
    destruct s as [[[anc path] cache] stack]; unfold cto_next_parent, dto_next_parent; intros Hok Hl s'.
    destruct (top_children stack cache) as [|o l] eqn:Et.
    - pose proof (drop_log stack g anc path) as Hd; destruct (cdrop_finished anc path stack) as [[anc1 path1] stack1].
      destruct Hd as (g1 & E & Hlk & Hp & Hb); rewrite E; cbv beta iota; intros Ha.
      destruct (advance_log f g1 (anc1, path1, cache, stack1) (Hb Hok)) as [E1 H1]; rewrite Ha in E1.
      destruct (H1 s' Ha) as [Hok' Hp']; exists g1; split; [exact E1|].
      split; [exact (Hlk (Hl eq_refl))|split; [exact Hok'|]].
      cbn [svals] in Hp'; cbn [svals]; perm with Hp', Hp.
    - pose proof (set_top_vals stack cache (None :: o :: l)) as Hv; pose proof (set_top_ok stack cache (None :: o :: l) Hok) as Hok1.
      destruct (set_top_children stack cache (None :: o :: l)) as [stack1 cache1]; cbn [fst] in Hok1; cbv beta iota; intros Ha.
      destruct (advance_log f g (anc, path, cache1, stack1) Hok1) as [E1 H1]; rewrite Ha in E1.
      destruct (H1 s' Ha) as [Hok' Hp']; exists g; split; [exact E1|]; split; [reflexivity|]; split; [exact Hok'|].
      rewrite Et in Hv; change (dvals (None :: o :: l)) with (dvals (o :: l)) in Hv; apply Permutation_app_inv_l in Hv.
      cbn [svals] in *; perm with Hp', Hv.
  Qed.

  Lemma maybe_pop_log s s' : cmaybe_pop s = Ok s' -> (okstack s -> okstack s') /\ Permutation (svals s') (svals s).
  Proof.
    destruct s as [[[anc path] cache] stack]; unfold cmaybe_pop, cpop_from_item_stack.
    destruct (length anc =? length stack + 2); [|intros [= <-]; split; auto].
    destruct anc as [|v [|w below]]; [discriminate|intros [= <-]; split; auto|].
    destruct path as [|p path']; [discriminate|]; destruct below as [|b below].
    - intros [= <-]; split; [auto|]; destruct cache as [cv i ch]; cbn [svals tl cn_set_children cn_children].
      rewrite !(cn_values_eq (CNode _ _ _)); cbn [cn_value cn_children]; rewrite dvals_app; cbn [dvals flat_map].
      rewrite (cn_values_eq (CNode (Some v) _ _)); cbn [cn_value cn_children opt_value dvals flat_map]; perm.
    - destruct (update_from_bottom _ _ stack) as [stack'|] eqn:Eu; [|discriminate]; intros [= <-]; cbn [okstack svals tl].
      assert (Hu : (Forall blank stack -> Forall blank stack') /\ Permutation (flat_map cn_values stack') (v :: flat_map cn_values stack)).
      { unfold update_from_bottom in Eu; destruct (update_nth _ _ (rev stack)) as [l|] eqn:El; [|discriminate]; injection Eu as <-.
        assert (Hn : forall l0 k l1, update_nth k (fun n => cn_set_children n (cn_children n ++ [Some (CNode (Some v) p [])])) l0 = Some l1 ->
          (Forall blank l0 -> Forall blank l1) /\ Permutation (flat_map cn_values l1) (v :: flat_map cn_values l0)).
        { induction l0 as [|x l0 IH]; intros [|k] l1; try discriminate; cbn [update_nth].
          - intros [= <-]; split; [intros H; inversion H; constructor; [apply set_blank|]; assumption|].
            destruct x as [cv i ch]; cbn [cn_set_children cn_children flat_map].
            rewrite !(cn_values_eq (CNode _ _ _)); cbn [cn_value cn_children]; rewrite dvals_app; cbn [dvals flat_map].
            rewrite (cn_values_eq (CNode (Some v) _ _)); cbn [cn_value cn_children opt_value dvals flat_map]; perm.
          - destruct (update_nth k _ l0) as [l2|] eqn:E2; [|discriminate]; intros [= <-]; destruct (IH k l2 E2) as [H1 H2].
            split; [intros H; inversion H; constructor; auto|]; cbn [flat_map]; perm with H2. }
        destruct (Hn _ _ _ El) as [H1 H2]; split.
        - intros H; apply Forall_rev, H1, Forall_rev, H.
        - rewrite (Permutation_flat_map cn_values (Permutation_sym (Permutation_rev l))), H2.
          constructor; apply Permutation_flat_map, Permutation_sym, Permutation_rev. }
      destruct Hu as [H1 H2]; split; [exact H1|]; perm with H2.
  Qed.
End Cells.

(** ** Nothing is leaked while the iterator runs *)
Section Spine.
  Context {Q V : Type} (kids : Q -> list Q) (val : Q -> V) (seg : Q -> N) (A : Q -> list V) (PP : Q -> list N).
  Context (T : Q -> tree Q).
  Hypothesis HT : node_tree (fun p => (val p, kids p)) T.
  Notation spine := (spine kids val seg T).
  Notation cached := (cached kids val seg).

  Lemma dead_leak e p ul m rest : spine [] e p ul m rest -> kids m = [] -> forall us,
    (rest = [] /\ cached (S e) p = [] /\ fin_leak (ul ++ us) = fin_leak us) \/ fin_leak (ul ++ us) = [].
  Proof.
    induction 1 as [p|e p pre c post ul m rest Hk Hs IH]; intros Hm us.
    - left; cbn; rewrite Hm; repeat split.
    - rewrite <- app_assoc; cbn [app].
      destruct (IH Hm (CNode None (seg p) (dq kids val seg e pre post) :: us)) as [(-> & Hc & E)|E]; [|right; exact E].
      rewrite E; cbn [fin_leak cn_children].
      assert (Hk' : kids p = (pre ++ [c]) ++ post) by (rewrite <- app_assoc; exact Hk).
      assert (Epre : flat_map (cached (S e)) (pre ++ [c]) = flat_map (cached (S e)) pre)
        by (rewrite flat_map_app; cbn [flat_map]; rewrite Hc, !app_nil_r; reflexivity).
      assert (El : length (dq kids val seg e pre post) = S (length (flat_map (cached e) post ++ flat_map (cached (S e)) pre)))
        by (unfold dq; rewrite !app_length; cbn [length]; rewrite !map_length; lia).
      rewrite El; destruct (flat_map (cached e) post ++ flat_map (cached (S e)) pre) as [|z zs] eqn:Ez; [|right; reflexivity].
      apply app_eq_nil in Ez as [E1 E2]; left; split; [|split].
      + apply (cacheds_nil kids val seg T HT) in E1; rewrite E1; reflexivity.
      + change (match flat_map (cached (S e)) (kids p) with
              | [] => [] | l => [CNode (Some (val p)) (seg p) (map Some l ++ [None])] end = []).
        rewrite Hk', flat_map_app, Epre, E2, (cacheds_deeper kids val seg T HT _ _ E1); reflexivity.
      + cbn [length Nat.ltb Nat.leb]; unfold dq; rewrite E1, E2; reflexivity.
  Qed.

  Lemma spine_blank d e p ul m rest : spine d e p ul m rest -> Forall blank ul.
  Proof. induction 1; [repeat constructor|apply Forall_app; split; [assumption|repeat constructor]]. Qed.

  Lemma split_in (ul : list (cnode V)) x : In x (fst (split ul)) -> In x ul.
  Proof.
    induction ul as [|y us IH]; [intros []|]; destruct us as [|z us]; [intros []|].
    rewrite split_cons; cbn [fst]; intros [<-|Hi]; [left; reflexivity|right; apply IH, Hi].
  Qed.

  Lemma at_parent_blank r D m done todo rest ul nxt anc path : at_parent kids val seg T r D m done todo rest ul nxt -> okstack (st anc path ul).
  Proof.
    intros (Hs & _); rewrite st_eq; cbn [okstack]; apply Forall_forall; intros x Hx; apply split_in in Hx.
    pose proof (spine_blank _ _ _ _ _ _ Hs) as Hb; rewrite Forall_forall in Hb; auto.
  Qed.

  Lemma at_parent_leak r D m done rest ul nxt anc path : at_parent kids val seg T r D m done [] rest ul nxt ->
    let '(_, _, cache, stack) := st anc path ul in top_children stack cache = [] -> fin_leak stack = [].
  Proof.
    intros (Hs & Hk & _); rewrite app_nil_r in Hk; rewrite st_eq; intros Ht.
    destruct (spine_set kids val seg T _ [] _ _ _ _ _ Hs) as (x & us & Eul & Ex & _).
    rewrite Eul, top_split, Ex in Ht; apply map_eq_nil in Ht.
    assert (Hd : done = []) by (destruct done; [reflexivity|discriminate]); rewrite Hd in Hs, Hk; cbn [flat_map map] in Hs.
    destruct (spine_inv _ _ _ _ _ _ _ _ _ _ Hs) as [(-> & -> & -> & ->)|(e & pre & c & post & ul0 & rest0 & -> & Hk0 & Hs0 & E3 & ->)]; [reflexivity|].
    rewrite E3, split_snoc; cbn [fst].
    destruct (dead_leak _ _ _ _ _ Hs0 Hk []) as [(_ & _ & E)|E]; rewrite app_nil_r in E; exact E.
  Qed.
End Spine.

(** ** The iterator *)
Section Iter.
  Context {Nd V C : Type} (gv : Nd -> V * C) (into_iter : C -> list (option Nd)).
  Local Notation value := (nval gv).
  Local Notation slots := (fun n => into_iter (nkids gv n)).
  Context (T : list nat -> list Nd -> Nd -> tree (pos Nd)) (ok : Nd -> Prop) (P0 : list nat) (n0 : Nd).
  Hypothesis HT : slot_law slots T.
  Hypothesis Hok : small_law slots ok.
  Hypothesis Hn0 : ok n0.

  Local Notation kids := (pkids gv into_iter).
  Local Notation sl := (pslots gv into_iter).
  Local Notation tq := (ptree T).
  Local Notation A := (panc gv).
  Local Notation r := (mkPos P0 [] n0).
  Local Notation at_par := (at_parent kids (pval gv) pseg tq r).
  Local Notation mk := (mk (Nd:=Nd) (V:=V) (C:=C)).
  Local Notation dbody := (dbfs_body gv (bfsc_skip (Nd:=Nd))).

  Definition bvals (s : bfsc V (option Nd) C) : list V := svals (bc_anc s, bc_path s, bc_cache s, bc_stack s).

  Lemma dbody_eq f g s anc path (ul : list (cnode V)) :
    cmaybe_pop (bc_anc s, bc_path s, bc_cache s, bc_stack s) = Ok (st anc path ul) ->
    dbody f (g, s) =
    match bc_queue s with
    | [] => Panic
    | front :: queue =>
        '(found, iter, counter) <- bfsc_skip front (bc_counter s) ;;
        match found with
        | Some nd =>
            counter' <- checked_succ counter ;;
            Ok (inr (g, mkBfsc (bc_is_root s) (snd (split ul)) (fst (split ul)) (iter :: queue) (counter :: path)
                            (value nd :: anc) (Some (nkids gv nd)) counter'))
        | None =>
            '(g, (anc, path, cache, stack)) <- dto_next_parent f (g, st anc path ul) ;;
            match queue with
            | [] => Ok (inr (log_drop anc g, mkBfsc (bc_is_root s) cache stack [] path [] (bc_children s) 0))
            | _ => Ok (inl (g, mkBfsc (bc_is_root s) cache stack queue path anc (bc_children s) 0))
            end
        end
    end.
  Proof.
    intros H; unfold dbfs_body; rewrite H, !st_eq; cbn [bindR].
    destruct (bc_queue s) as [|front queue]; [reflexivity|].
    destruct (bfsc_skip front (bc_counter s)) as [[[[nd|] iter] counter]| | |]; cbn [bindR]; try reflexivity.
    destruct (checked_succ counter); cbn [bindR]; try reflexivity.
    rewrite (gv_eq gv nd); reflexivity.
  Qed.

  (** One run of the loop from a state between two yields. *)
  Lemma drops_loop f : forall g D m done todo rest ul nxt fs j ch s',
    at_par D m done todo rest ul nxt -> pbelow m j fs = todo -> (N.of_nat (j + length fs) <= usize_max)%N ->
    loop (bfscb_body gv) f (mk (A m) (ppath m) ul (fs :: map sl rest ++ map sl nxt) ch (N.of_nat j)) = Ok s' ->
    exists g', loop dbody f (g, mk (A m) (ppath m) ul (fs :: map sl rest ++ map sl nxt) ch (N.of_nat j)) = Ok (g', s') /\
      leaked g' = leaked g /\
      Permutation (gvals g' ++ bvals s') (gvals g ++ svals (st (A m) (ppath m) ul) ++ opt_value (hd_error (bc_anc s'))).
  Proof.
    induction f as [|f IH]; intros g D m done todo rest ul nxt fs j ch s' Hat Htodo Hb; [discriminate|].
    assert (Hpop : cmaybe_pop (A m, ppath m, snd (split ul), fst (split ul)) = Ok (st (A m) (ppath m) ul))
      by (rewrite <- st_eq; eapply maybe_pop_at; [apply (pkids_A gv into_iter)|apply (A_r gv P0 n0)|exact Hat]).
    cbn [loop]; rewrite (body_eq gv f (mk (A m) (ppath m) ul (fs :: map sl rest ++ map sl nxt) ch (N.of_nat j)) _ _ _ Hpop).
    rewrite (dbody_eq f g (mk (A m) (ppath m) ul (fs :: map sl rest ++ map sl nxt) ch (N.of_nat j)) _ _ _ Hpop).
    cbn [mk bc_queue bc_counter bc_is_root bc_children].
    destruct (skip_spec m fs j Hb) as [(E & cnt & Es)|(c & i & l' & Es & Hcs & Hlen & Hpath & E)]; rewrite Es; cbn [bindR].
    - rewrite Htodo in E; subst todo; rewrite E in *.
      destruct (cto_next_parent f (st (A m) (ppath m) ul)) as [s1| | |] eqn:Ec; try discriminate.
      destruct (next_parent_log f g _ (at_parent_blank _ _ _ _ _ _ _ _ _ _ _ _ (A m) (ppath m) Hat)
                  (at_parent_leak _ _ _ _ (pnode gv into_iter T HT) _ _ _ _ _ _ _ (A m) (ppath m) Hat) s1 Ec) as (g1 & Eg & Hl & Hk1 & Hp).
      rewrite Eg; cbn [bindR].
      destruct (next_parent' kids (pval gv) pseg A ppath tq (pnode gv into_iter T HT) (pkids_A gv into_iter) (pkids_P gv into_iter) r (A_r gv P0 n0)
                  _ _ _ _ _ _ Hat) as (s2 & Hc & Hres).
      assert (s2 = s1).
      { pose proof (more_conv _ f _ (more_cto_next_parent (st (A m) (ppath m) ul)) Ec ltac:(discriminate)) as Hc1.
        pose proof (conv_fun _ _ _ Hc Hc1) as Eq; injection Eq as <-; reflexivity. }
      subst s2; destruct Hres as [[Hnil ->]|(D' & m' & rest' & ul' & nxt' & -> & Hat' & Eq)].
      + apply app_eq_nil in Hnil as [-> ->]; cbn [map app bindR]; intros [= <-].
        eexists; split; [reflexivity|]; split; [exact Hl|].
        cbn [bvals svals gvals log_drop dropped leaked bc_anc bc_path bc_cache bc_stack hd_error opt_value] in *.
        unfold bvals, gvals in *; cbn [svals bc_anc bc_path bc_cache bc_stack dropped leaked log_drop] in *; perm with Hp.
      + rewrite <- map_app, Eq in *; cbn [map] in *; rewrite map_app in *.
        rewrite (st_eq (A m')); cbn [bindR]; intros Hloop.
        destruct (IH g1 D' m' [] (kids m') rest' ul' nxt' (sl m') 0 ch s' Hat' eq_refl) as (g' & Eg' & Hl' & Hp').
        * apply (ok_slots gv into_iter ok Hok).
          pose proof (at_parent_ok kids (pval gv) pseg tq (pnode gv into_iter T HT) r (fun q => ok (pos_here q)) Hn0
            (pkids_ok gv into_iter ok Hok) _ _ _ _ _ _ _ Hat') as [Hm' _]; exact Hm'.
        * exact Hloop.
        * exists g'; split; [exact Eg'|]; split; [congruence|]; perm with Hp, Hp'.
    - rewrite Htodo in E; subst todo; rewrite E in *; rewrite Hcs; cbn [bindR]; intros [= <-].
      eexists; split; [reflexivity|]; split; [reflexivity|].
      unfold bvals; rewrite st_eq; cbn [bc_anc bc_path bc_cache bc_stack svals hd_error opt_value]; perm.
  Qed.
End Iter.
