(** * ProofsLazyPipeColl: pipelines over collections of trees that are made as they are traversed. *)
From Verif Require Import Prelim PrelimFacts Spec SpecFacts SpecPipe SpecPipeColl SpecExplore ModelNode NodeFacts ModelPre ModelPipe ModelPipeColl ModelMapPath ModelLazyPipe
  ProofsPlain Slots PipeCore PipeBase PipeChain PipeEnd ProofsPipe PipeFinal PipeSpecFacts ProofsMapPathChain ProofsMapPathBehind PipeGood
  PipeCollBase PipeCollEnd ProofsPipeColl PipeCollFinal ProofsLazyPipe.

Lemma simg_ended {A G X} (P : pipe A) (vis : G -> X -> G * outcome A) good pok R g : simg P vis good pok R -> good g -> ended P (fun i => R i g [] []).
Proof.
  intros H Hg i HR; destruct (sg_next _ _ _ _ _ H _ _ _ _ HR None [] [] g eq_refl Hg) as (s' & Hc & HR' & _); eauto.
Qed.

Section LazyColl.
  Context {Nd V C It : Type} (gv : Nd -> V * C) (into_iter : C -> It).
  Variable body : nat -> list It * list N -> Res (list It * list N + option Nd * (list It * list N)).
  Variable gives : It -> list (option Nd) -> Prop.
  Hypothesis body_nil : forall f path, body f ([], path) = Ok (inr (None, ([], path))).
  Hypothesis body_scan : forall top l, gives top l ->
    match first_some l with
    | None => forall f rest j path, body f (top :: rest, seg_before j :: path) = Ok (inl (rest, path))
    | Some (k, n, l') => exists top', gives top' l' /\
        forall f rest j path, body f (top :: rest, seg_before j :: path) = Ok (inr (Some n, (top' :: rest, seg_before (S (j + k)) :: path)))
    end.

  Notation X := (pos (option Nd)).
  Notation pres' := (pres gv into_iter gives).
  Notation lb i := (lbase_R gv into_iter gives [i]).
  Notation next := (lpt_next_with gv into_iter body).
  Notation vis := (lvis gv).

  (** The trees not taken yet. *)
  Inductive waiting : nat -> list Nd -> list (tree X) -> Prop :=
  | w_nil j : waiting j [] []
  | w_cons j n ns t ts : pres' [j] n t -> waiting (S j) ns ts -> waiting j (n :: ns) (t :: ts).

  Definition lct_R (s : lctrack Nd C It) (g : option (list Nd)) (d r : list (tree X)) : Prop :=
    g = Some (lct_log s) /\
    exists j later, lct_count s = N.of_nat j /\ (N.of_nat (j + length (lct_trees s)) <= usize_max)%N /\ waiting j (lct_trees s) later /\
    match lct_cur s with
    | None => d = [] /\ r = later
    | Some it => exists i ri, lb i it g d ri /\ r = ri ++ later
    end.

  Lemma lb_rooted i it g d r : lb i it g d r -> lpt_current_path it <> [].
  Proof.
    intros (_ & [(n & t & _ & E & _)|(fs & _ & _ & E & _)]); unfold lpt_current_path; rewrite E; [discriminate|].
    rewrite rev_app_distr; discriminate.
  Qed.

  Lemma lb_prune i it g d r : lb i it g d r -> lb i (lpt_prune it) g [] r.
  Proof.
    destruct it as [log sr sp sd st]; intros (-> & HR); split; [reflexivity|].
    destruct HR as [(n & t & Er & Ep & Ed & Es & -> & -> & Hp)|(fs & Er & Es & Ep & Hok & He & -> & Hd)]; cbn in *.
    - left; exists n, t; cbn; auto 8.
    - right; exists fs; cbn; repeat split; auto.
  Qed.

  (** One more node of the current tree. *)
  Lemma step_cur trees count i it g d ri x ts rest r2 o d' r' g' : lb i it g d ri -> d ++ ri = TNode x ts :: rest ->
    vstep vis g (TNode x ts :: rest ++ r2) = (o, d', r', g') -> lgood g' ->
    exists a it', o = Some (a, x) /\ r' = rest ++ r2 /\ d' = ts /\
      (fun f => loop (lct_body next) f (mkLct trees count (Some it))) ⇓ Ok (Some a, mkLct trees count (Some it')) /\
      lb i it' g' ts rest /\ pok_exact1 (lpt_current_path it') x.
  Proof.
    intros HR E Ev Hg; cbn [vstep] in Ev; destruct (vis g x) as [g1 oc] eqn:Ex.
    destruct oc as [|a down].
    { exfalso; apply (vstep_back vis lgood (lvis_back gv)) in Ev; [|exact Hg].
      unfold lvis in Ex; destruct g, (pos_here x); injection Ex as <-; try discriminate; elim Ev; reflexivity. }
    assert (down = true) as -> by (unfold lvis in Ex; destruct g, (pos_here x); congruence).
    injection Ev as <- <- <- <-.
    assert (Ev' : vstep vis g (d ++ ri) = (Some (a, x), ts, rest, g1)) by (rewrite E; cbn [vstep]; rewrite Ex; reflexivity).
    destruct (lbase_next gv into_iter body gives body_nil body_scan [i] _ _ _ _ HR _ _ _ _ Ev' Hg) as (it' & Hc & HR' & Hp).
    exists a, it'; do 3 (split; [reflexivity|]); split; [|split; [exact HR'|split; [eapply Hp; reflexivity|]]].
    - apply loop_done; unfold lct_body; cbn [lct_cur lct_trees lct_count]; eapply conv_bind; [exact Hc|]; now_conv.
    - specialize (Hp _ _ eq_refl); pose proof (lb_rooted _ _ _ _ _ HR') as Hn; unfold rooted; intros E0; apply Hn; rewrite Hp, E0; reflexivity.
  Qed.

  (** The current tree is at its end. *)
  Lemma cur_over i it g : lb i it g [] [] -> lgood g ->
    exists it', (fun f => next f it) ⇓ Ok (None, it') /\ lb i it' g [] [].
  Proof.
    intros HR Hg; destruct (lbase_next gv into_iter body gives body_nil body_scan [i] _ _ _ _ HR None [] [] g eq_refl Hg) as (it' & Hc & HR' & _); eauto.
  Qed.

  Lemma lb_log i it g d r : lb i it g d r -> g = Some (lpt_log it).
  Proof. intros (H & _); exact H. Qed.

  (** From the next tree on. *)
  Lemma step_take trees j cur later g o d' r' g' : waiting j trees later -> (N.of_nat (j + length trees) <= usize_max)%N -> g = Some (log_of cur) ->
    vstep vis g later = (o, d', r', g') -> lgood g' ->
    match later with
    | [] => lct_take (V := V) trees (N.of_nat j) cur = Ok (inr (None, mkLct [] (N.of_nat j) cur)) /\ o = None /\ d' = [] /\ r' = [] /\ g' = g
    | _ => exists s1 a x s', lct_take (V := V) trees (N.of_nat j) cur = Ok (inl s1) /\ o = Some (a, x) /\
        (fun f => loop (lct_body next) f s1) ⇓ Ok (Some a, s') /\ lct_R s' g' d' r' /\ pok_exact1 (lct_path s') x
    end.
  Proof.
    intros Hw Hb -> E Hg; destruct Hw as [j|j n ns [x ts] tr Hp Hw].
    - cbn in E; injection E as <- <- <- <-; auto.
    - cbn [length] in Hb.
      assert (Hi : lb j (mkLpt (log_of cur) (Some n) [N.of_nat j] None []) (Some (log_of cur)) [] [TNode x ts]).
      { pose proof (lbase_init gv into_iter gives [j] (log_of cur) n _ Hp) as Hi; cbn [map rev app] in Hi; rewrite wrap_small in Hi by lia; exact Hi. }
      destruct (step_cur ns (N.of_nat (S j)) j _ _ [] [TNode x ts] x ts [] tr o d' r' g' Hi eq_refl E Hg) as (a & it' & -> & -> & -> & Hc & HR & Hpk).
      exists (mkLct ns (N.of_nat (S j)) (Some (mkLpt (log_of cur) (Some n) [N.of_nat j] None []))), a, x, (mkLct ns (N.of_nat (S j)) (Some it')).
      split; [|split; [reflexivity|split; [exact Hc|split; [|exact Hpk]]]].
      + unfold lct_take; replace (checked_succ (N.of_nat j)) with (Ok (N.of_nat (S j))); [reflexivity|].
        unfold checked_succ; rewrite Nat2N.inj_succ, <- N.add_1_r; destruct (N.eqb_spec (N.of_nat j) usize_max); [lia|reflexivity].
      + split; [unfold lct_log; cbn; exact (lb_log _ _ _ _ _ HR)|]; exists (S j), tr; cbn [lct_count lct_trees lct_cur]; repeat split; [lia|exact Hw|].
        exists j, []; split; [exact HR|reflexivity].
  Qed.

  Lemma lct_sim trees0 : simg (lct_pipe next trees0) vis lgood pok_exact1 lct_R.
  Proof.
    split.
    - intros [trees count cur] g d r (Eg & j & later & Ec & Hb & Hw & HR) o d' r' g' E Hg; cbn [lct_count lct_trees lct_cur] in *; subst count.
      cbn [p_next lct_pipe p_path p_state]; unfold lct_next.
      destruct cur as [it|].
      + destruct HR as (i & ri & HR & ->); rewrite app_assoc in E; destruct (d ++ ri) as [|[x ts] rest] eqn:Ed.
        * apply app_eq_nil in Ed as [-> ->]; cbn [app] in E.
          destruct (cur_over _ _ _ HR (vstep_back vis lgood (lvis_back gv) _ _ _ _ _ _ E Hg)) as (it' & Hc & HR').
          pose proof (step_take trees j (Some it') later g o d' r' g' Hw Hb (lb_log _ _ _ _ _ HR') E Hg) as Hs.
          destruct later as [|t later].
          -- destruct Hs as (Ht & -> & -> & -> & ->); exists (mkLct [] (N.of_nat j) (Some it')); split; [|split; [|discriminate]].
             ++ apply loop_done; unfold lct_body; cbn [lct_cur lct_trees lct_count]; eapply conv_bind; [exact Hc|]; cbn; rewrite Ht; now_conv.
             ++ split; [exact (lb_log _ _ _ _ _ HR')|]; exists j, []; cbn [lct_count lct_trees lct_cur]; split; [reflexivity|].
                inversion Hw; subst; split; [exact Hb|]; split; [constructor|]; exists i, []; split; [exact HR'|reflexivity].
          -- destruct Hs as (s1 & a & x & s' & Ht & -> & Hl & HR2 & Hp); exists s'; split; [|split; [exact HR2|intros ? ? E2; injection E2 as <- <-; exact Hp]].
             eapply loop_step; [|exact Hl]; unfold lct_body; cbn [lct_cur lct_trees lct_count]; eapply conv_bind; [exact Hc|]; cbn; rewrite Ht; now_conv.
        * cbn [app] in E; destruct (step_cur trees (N.of_nat j) i it g d ri x ts rest later o d' r' g' HR Ed E Hg) as (a & it' & -> & -> & -> & Hc & HR' & Hp).
          exists (mkLct trees (N.of_nat j) (Some it')); split; [exact Hc|]; split; [|intros ? ? E2; injection E2 as <- <-; exact Hp].
          split; [exact (lb_log _ _ _ _ _ HR')|]; exists j, later; cbn [lct_count lct_trees lct_cur]; repeat split; auto; exists i, rest; split; [exact HR'|reflexivity].
      + destruct HR as (-> & ->); cbn [app] in E.
        pose proof (step_take trees j None later g o d' r' g' Hw Hb Eg E Hg) as Hs.
        destruct later as [|t later].
        * destruct Hs as (Ht & -> & -> & -> & ->); exists (mkLct [] (N.of_nat j) None); split; [|split; [|discriminate]].
          -- apply loop_done; unfold lct_body; cbn [lct_cur lct_trees lct_count]; rewrite Ht; now_conv.
          -- split; [exact Eg|]; exists j, []; cbn [lct_count lct_trees lct_cur]; split; [reflexivity|].
             inversion Hw; subst; split; [exact Hb|]; split; [constructor|]; split; reflexivity.
        * destruct Hs as (s1 & a & x & s' & Ht & -> & Hl & HR2 & Hp); exists s'; split; [|split; [exact HR2|intros ? ? E2; injection E2 as <- <-; exact Hp]].
          eapply loop_step; [|exact Hl]; unfold lct_body; cbn [lct_cur lct_trees lct_count]; rewrite Ht; now_conv.
    - intros [trees count [it|]] g d r (Eg & j & later & Ec & Hb & Hw & HR); cbn [p_prune lct_pipe lct_count lct_trees lct_cur] in *.
      + destruct HR as (i & ri & HR & ->); split; [exact Eg|]; exists j, later; cbn [lct_prune lct_count lct_trees lct_cur]; repeat split; auto.
        exists i, ri; split; [apply lb_prune with (d := d); exact HR|reflexivity].
      + destruct HR as (-> & ->); split; [exact Eg|]; exists j, later; cbn; repeat split; auto.
    - intros [trees count [it|]]; reflexivity.
    - exact (lvis_back gv).
  Qed.

  Lemma kids_waiting ns : forall j ts, pres_kids gv into_iter gives [] j (map Some ns) ts -> waiting j ns ts.
  Proof.
    induction ns as [|n ns IH]; intros j ts H; inversion H; subst; constructor; auto.
  Qed.

  Lemma lct_init trees ts : small_collection trees -> waiting 0 trees ts -> lct_R (lct_new trees) (Some []) [] ts.
  Proof. intros Hc Hw; split; [reflexivity|]; exists 0, ts; cbn; repeat split; auto. Qed.
End LazyColl.

Definition cdp (p : list nat) : N := N.of_nat (pred (length p)).
Notation wp := SpecExplore.with_path.

Section NaryEach.
  Context {Nd V C It : Type} (gv : Nd -> V * C) (into_iter : C -> It) (poll : It -> option Nd * It).
  Context {A : Type} (c : chain V A).
  Notation base trees := (lazy_pipeline_each gv into_iter poll trees).
  Notation P trees := (each_chain (base trees) c).
  Notation vis := (chain_visG (lvis gv) xpath (fun x => cdp (pos_path x)) c).
  Notation clo trees i := (closures coll_depth [0%N] (base trees) c i).
  Notation log trees i := (rev (lct_log (chain_first coll_depth [0%N] (base trees) c i))).

  Section Items.
    Variable need : bool.
    Hypothesis Hneed : has_prune c = true -> need = true.

    Lemma lazy_each_items trees g' seen outs : true_paths c = true -> small_collection trees ->
      explored_kids gv into_iter poll (wp (visit_each gv c)) (clos_init c) [] 0 trees g' seen outs ->
      (need = true -> (2 * N.of_nat (length seen) <= usize_max)%N) ->
      exists Dn (ws : list (tree (A * pos (option Nd)))), ended (P trees) Dn /\ (forall i, Dn i -> clo trees i = g' /\ log trees i = seen) /\
        Forall (fun w => exists i, below [i] w) ws /\ (need = true -> Forall kept_small ws) /\ map (tree_map with_pos) ws = outs /\
        exists iend, Dn iend /\ items (P trees) (if has_prune c then pok_len1 else pok_exact1) (p_init (P trees)) (flat_map preorder ws) iend.
    Proof.
      intros Ht Hc He Hb.
      destruct (proj2 (explored_walk gv into_iter poll c cdp need Hneed) _ _ _ _ _ _ _ He) as (fs & ws & Hk & Hsz & Eo & Hbel & Hw).
      { intros H; specialize (Hb H); split; [cbn; lia|constructor]. }
      destruct (chain_simg (base trees) coll_depth [0%N] (lvis gv) xpath (fun x => cdp (pos_path x)) pok_exact1 pok_len1 pok_exact1_facts pok_len1_facts
        (lct_R gv into_iter (poll_gives poll)) lgood (lct_sim gv into_iter (lpt_body poll) (poll_gives poll) (fun _ _ => eq_refl) (poll_scan poll) trees)
        (Some []) [] fs (lct_init gv into_iter (poll_gives poll) trees fs Hc (kids_waiting _ _ _ _ _ _ Hk)) c Ht) as (R & HR & Hcl & Hi).
      { intros H; specialize (Hb (Hneed H)); cbn [app]; split; [lia|]; constructor; [|constructor]; rewrite N.add_0_l; lia. }
      assert (Ew : walk_all (with_node vis) (Some [], clos_init c) fs = ((Some (rev seen), g'), ws)).
      { unfold walk_all; rewrite Hw, app_nil_r; reflexivity. }
      destruct (simg_items _ _ _ _ _ HR _ _ _ _ Hi) as (s & Hit & HR'); cbn [app] in *.
      { rewrite Ew; cbn; discriminate. }
      rewrite Ew in Hit, HR'; cbn [fst snd] in Hit, HR'.
      exists (fun i => R i (Some (rev seen), g') [] []), ws; split; [eapply simg_ended; [exact HR|discriminate]|].
      split; [|split; [|split; [|split; [exact Eo|]]]].
      - intros i HRi; destruct (Hcl _ _ _ _ HRi) as (E1 & E2 & _); cbn [fst snd] in E1, E2; injection E2 as E2.
        split; [exact E1|]; rewrite <- E2; apply rev_involutive.
      - eapply Forall_impl; [|exact Hbel]; intros w (H & _); exact H.
      - intros H; eapply Forall_impl; [|exact Hbel]; intros w (_ & Hw'); exact (Hw' H).
      - exists s; split; [exact HR'|exact Hit].
    Qed.
  End Items.

  Lemma map_fst_pos (ws : list (tree (A * pos (option Nd)))) : map (tree_map fst) (map (tree_map with_pos) ws) = map (tree_map fst) ws.
  Proof. rewrite map_map; apply map_ext; intros w; apply tree_map_fst_pos. Qed.

  Lemma lazy_each_trees trees gs seen outs : true_paths c = true -> small_collection trees ->
    (has_prune c = true -> (2 * N.of_nat (length seen) <= usize_max)%N) ->
    explored_kids gv into_iter poll (visit_each gv c) (clos_init c) [] 0 trees gs seen outs ->
    forall k, exists i ahead, calls (trees_next (P trees)) k (trees_new (P trees)) ⇓ Ok (map (nth_error outs) (seq 0 k), (i, ahead, tt)) /\
      (length outs < k -> clo trees i = gs /\ log trees i = seen).
  Proof.
    intros Ht Hc Hb He k; destruct (proj2 (explored_path gv into_iter poll _) _ _ _ _ _ _ _ He) as (outs' & He' & <-).
    destruct (lazy_each_items (has_prune c) (fun H => H) trees gs seen outs' Ht Hc He' Hb) as (Dn & ws & Hd & Hcl & Hbw & _ & <- & iend & Hend & Hi).
    rewrite map_fst_pos, map_length.
    destruct (trees_all (P trees) _ (pok_len1_any _ _) Dn Hd ws iend Hbw Hend Hi k) as (i & ahead & E & Hk).
    exists i, ahead; split; [exact E|]; intros Hlt; apply Hcl, Hk; exact Hlt.
  Qed.

  Lemma lazy_each_fold {G O} (f : G -> list O -> A -> G * O) (g : G) trees gs seen outs : true_paths c = true -> small_collection trees ->
    (has_prune c = true -> (2 * N.of_nat (length seen) <= usize_max)%N) ->
    explored_kids gv into_iter poll (visit_each gv c) (clos_init c) [] 0 trees gs seen outs ->
    forall k, exists i ahead, calls (cfold_next (P trees) f) k (consume_new (P trees) g) ⇓
        Ok (map (nth_error (snd (fold_all f g outs))) (seq 0 k), (i, ahead, fst (fold_all f g (firstn k outs)))) /\
      (length outs < k -> clo trees i = gs /\ log trees i = seen).
  Proof.
    intros Ht Hc Hb He k; destruct (proj2 (explored_path gv into_iter poll _) _ _ _ _ _ _ _ He) as (outs' & He' & <-).
    destruct (lazy_each_items (has_prune c) (fun H => H) trees gs seen outs' Ht Hc He' Hb) as (Dn & ws & Hd & Hcl & Hbw & _ & <- & iend & Hend & Hi).
    rewrite map_fst_pos, map_length.
    destruct (cfold_all (P trees) _ (pok_len1_any _ _) Dn Hd f ws iend g Hbw Hend Hi k) as (i & ahead & E & Hk).
    exists i, ahead; split; [|intros Hlt; apply Hcl, Hk; exact Hlt].
    rewrite firstn_map, !fold_all_map; exact E.
  Qed.

  Lemma lazy_each_fold_path {G O} (f : G -> list O -> list N -> A -> G * O) (g : G) trees gs seen outs : has_prune c = false -> small_collection trees ->
    (2 * N.of_nat (length seen) <= usize_max)%N ->
    explored_kids gv into_iter poll (wp (visit_each gv c)) (clos_init c) [] 0 trees gs seen outs ->
    let f' := fun g os (ap : A * list nat) => f g os (map N.of_nat (snd ap)) (fst ap) in
    forall k, exists i ahead, calls (cfoldp_next (P trees) f) k (consume_new (P trees) g) ⇓
        Ok (map (nth_error (snd (fold_all f' g outs))) (seq 0 k), (i, ahead, fst (fold_all f' g (firstn k outs)))) /\
      (length outs < k -> clo trees i = gs /\ log trees i = seen).
  Proof.
    intros Hn Hc Hb He f' k.
    assert (Ht : true_paths c = true).
    { clear -Hn; induction c; cbn in *; try reflexivity; try discriminate; auto. }
    destruct (lazy_each_items true (fun _ => eq_refl) trees gs seen outs Ht Hc He (fun _ => Hb)) as (Dn & ws & Hd & Hcl & Hbw & Hks & <- & iend & Hend & Hi).
    rewrite Hn in Hi; rewrite map_length.
    destruct (cfoldp_all (P trees) _ (exact1_len1 _) Dn Hd (exact1_path _) f ws iend g Hbw Hend Hi k) as (i & ahead & E & Hk).
    exists i, ahead; split; [|intros Hlt; apply Hcl, Hk; exact Hlt].
    assert (X : forall g os ax, In ax (flat_map preorder ws) -> f' g os (with_pos ax) = f g os (xpath (snd ax)) (fst ax)).
    { intros h os ax Hax; apply in_flat_map in Hax as (w & Hw & Hax); specialize (Hks eq_refl); rewrite Forall_forall in Hks; specialize (Hks w Hw).
      unfold kept_small in Hks; rewrite Forall_forall in Hks; specialize (Hks ax Hax).
      unfold f', with_pos, xpath; cbn [fst snd]; f_equal; apply map_ext_Forall; eapply Forall_impl; [|exact Hks].
      intros j Hj; symmetry; apply wrap_small; exact Hj. }
    rewrite firstn_map, !fold_all_map.
    rewrite (fold_all_ext_in _ (fun g os ax => f g os (xpath (snd ax)) (fst ax)) ws X).
    rewrite (fold_all_ext_in _ (fun g os ax => f g os (xpath (snd ax)) (fst ax)) (firstn k ws)); [exact E|].
    intros h os ax Hax; apply X; eapply in_flat_firstn; exact Hax.
  Qed.
End NaryEach.

(** ** Binary *)
Section BinaryEach.
  Context {Nd V : Type} (gvcb : Nd -> V * (option Nd * option Nd)) {A : Type} (c : chain V A).
  Notation gives := (@eq (list (option Nd))).
  Notation base trees := (lazy_pipeline_each_binary gvcb trees).
  Notation P trees := (each_chain_binary (base trees) c).
  Notation vis := (chain_visG (lvis gvcb) xpath (fun x => cdp (pos_path x)) c).
  Notation clo trees i := (closures_binary coll_depth (base trees) c i).
  Notation log trees i := (rev (lct_log (chain_first_binary coll_depth (base trees) c i))).

  Lemma btrees_path {G B} (visit : G -> list nat -> Nd -> G * outcome B) g i ns g' seen ts : bexplored_trees gvcb visit g i ns g' seen ts ->
    exists ts', bexplored_trees gvcb (wp visit) g i ns g' seen ts' /\ map (btree_map fst) ts' = ts.
  Proof.
    induction 1 as [g i|g i n ns g1 s1 o g2 s2 ts H1 _ (ts' & IH & <-)]; [exists []; split; [constructor|reflexivity]|].
    destruct (proj1 (bexplored_path gvcb _) _ _ _ _ _ _ H1) as (o' & H1' & <-).
    exists (opt_list o' ++ ts'); split; [econstructor; eassumption|]; rewrite map_app; destruct o'; reflexivity.
  Qed.

  Lemma btrees_walk g i ns g' seen ts : bexplored_trees gvcb (wp (visit_each gvcb c)) g i ns g' seen ts -> (N.of_nat (i + length ns) <= usize_max)%N ->
    exists fs ws, waiting gvcb pair_iter gives i ns fs /\ map (btree_map with_pos) ws = ts /\
      Forall (fun w => (exists j, bbelow [j] w) /\ bkept_small w) ws /\
      forall log, walk_list (walk (with_node vis)) (Some log, g) fs = ((Some (rev seen ++ log), g'), map flat ws).
  Proof.
    induction 1 as [g i|g i n ns g1 s1 o g2 s2 ts H1 _ IH]; intros Hb.
    - exists [], []; repeat split; constructor.
    - cbn [length] in Hb; destruct (IH ltac:(lia)) as (fs & ws & Hw & <- & Hf & Hwk).
      destruct (proj1 (bexplored_walk gvcb c cdp) _ _ _ _ _ _ H1) as (t & tw & Hp & <- & Hbel & Hwt); [constructor; [lia|constructor]|].
      exists (t :: fs), (opt_list tw ++ ws); split; [constructor; assumption|].
      split; [rewrite map_app; destruct tw; reflexivity|].
      split; [apply Forall_app; split; [|exact Hf]; destruct tw; cbn; [constructor; [split; [exists i|]; apply Hbel|constructor]|constructor]|].
      intros log; rewrite walk_list_cons, Hwt, Hwk, rev_app_distr, <- app_assoc, map_app; destruct tw; reflexivity.
  Qed.

  Lemma blazy_each_items trees g' seen outs : small_collection trees ->
    bexplored_trees gvcb (wp (visit_each gvcb c)) (clos_init c) 0 trees g' seen outs ->
    exists Dn (ws : list (btree (A * pos (option Nd)))), ended (P trees) Dn /\ (forall i, Dn i -> clo trees i = g' /\ log trees i = seen) /\
      Forall (fun w => exists i, bbelow [i] w) ws /\ Forall bkept_small ws /\ map (btree_map with_pos) ws = outs /\
      exists iend, Dn iend /\ items (P trees) pok_exact1 (p_init (P trees)) (flat_map preorder (map flat ws)) iend.
  Proof.
    intros Hc He; destruct (btrees_walk _ _ _ _ _ _ He Hc) as (fs & ws & Hwt & Eo & Hbel & Hw).
    destruct (bchain_simg (base trees) coll_depth (lvis gvcb) xpath (fun x => cdp (pos_path x)) pok_exact1 pok_len1 pok_exact1_facts pok_len1_facts
      (lct_R gvcb pair_iter gives) lgood (lct_sim gvcb pair_iter ptb_body gives (fun _ _ => eq_refl) eq_scan trees)
      (Some []) [] fs (lct_init gvcb pair_iter gives trees fs Hc Hwt) c) as (R & HR & Hcl & Hi).
    assert (Ew : walk_all (with_node vis) (Some [], clos_init c) fs = ((Some (rev seen), g'), map flat ws)).
    { unfold walk_all; rewrite Hw, app_nil_r; reflexivity. }
    destruct (simg_items _ _ _ _ _ HR _ _ _ _ Hi) as (s & Hit & HR'); cbn [app] in *.
    { rewrite Ew; cbn; discriminate. }
    rewrite Ew in Hit, HR'; cbn [fst snd] in Hit, HR'.
    exists (fun i => R i (Some (rev seen), g') [] []), ws; split; [eapply simg_ended; [exact HR|discriminate]|].
    split; [|split; [|split; [|split; [exact Eo|]]]].
    - intros i HRi; destruct (Hcl _ _ _ _ HRi) as (E1 & E2 & _); cbn [fst snd] in E1, E2; injection E2 as E2.
      split; [exact E1|]; rewrite <- E2; apply rev_involutive.
    - eapply Forall_impl; [|exact Hbel]; intros w (H & _); exact H.
    - eapply Forall_impl; [|exact Hbel]; intros w (_ & H); exact H.
    - exists s; split; [exact HR'|exact Hit].
  Qed.

  Lemma bmap_fst_pos (ws : list (btree (A * pos (option Nd)))) : map (btree_map fst) (map (btree_map with_pos) ws) = map (btree_map fst) ws.
  Proof. rewrite map_map; apply map_ext; intros w; rewrite btree_map_map; reflexivity. Qed.

  Lemma blazy_each_trees trees gs seen outs : small_collection trees ->
    bexplored_trees gvcb (visit_each gvcb c) (clos_init c) 0 trees gs seen outs ->
    forall k, exists i ahead, calls (btrees_next (P trees)) k (trees_new (P trees)) ⇓ Ok (map (nth_error outs) (seq 0 k), (i, ahead, tt)) /\
      (length outs < k -> clo trees i = gs /\ log trees i = seen).
  Proof.
    intros Hc He k; destruct (btrees_path _ _ _ _ _ _ _ He) as (outs' & He' & <-).
    destruct (blazy_each_items trees gs seen outs' Hc He') as (Dn & ws & Hd & Hcl & Hbw & _ & <- & iend & Hend & Hi).
    rewrite bmap_fst_pos, map_length.
    destruct (btrees_all (P trees) _ (exact1_len1 _) Dn Hd (exact1_path _) ws iend Hbw Hend Hi k) as (i & ahead & E & Hk).
    exists i, ahead; split; [exact E|]; intros Hlt; apply Hcl, Hk; exact Hlt.
  Qed.

  Lemma blazy_each_fold {G O} (f : G -> option O * option O -> A -> G * O) (g : G) trees gs seen outs : small_collection trees ->
    bexplored_trees gvcb (visit_each gvcb c) (clos_init c) 0 trees gs seen outs ->
    forall k, exists i ahead, calls (bcfold_next (P trees) f) k (consume_new (P trees) g) ⇓
        Ok (map (nth_error (snd (bfold_all f g outs))) (seq 0 k), (i, ahead, fst (bfold_all f g (firstn k outs)))) /\
      (length outs < k -> clo trees i = gs /\ log trees i = seen).
  Proof.
    intros Hc He k; destruct (btrees_path _ _ _ _ _ _ _ He) as (outs' & He' & <-).
    destruct (blazy_each_items trees gs seen outs' Hc He') as (Dn & ws & Hd & Hcl & Hbw & _ & <- & iend & Hend & Hi).
    rewrite bmap_fst_pos, map_length.
    destruct (bcfold_all (P trees) _ (exact1_len1 _) Dn Hd (exact1_path _) f ws iend g Hbw Hend Hi k) as (i & ahead & E & Hk).
    exists i, ahead; split; [|intros Hlt; apply Hcl, Hk; exact Hlt].
    rewrite firstn_map, !bfold_all_map; exact E.
  Qed.

  Lemma blazy_each_fold_path {G O} (f : G -> option O * option O -> list N -> A -> G * O) (g : G) trees gs seen outs : small_collection trees ->
    bexplored_trees gvcb (wp (visit_each gvcb c)) (clos_init c) 0 trees gs seen outs ->
    let f' := fun g os (ap : A * list nat) => f g os (map N.of_nat (snd ap)) (fst ap) in
    forall k, exists i ahead, calls (bcfoldp_next (P trees) f) k (consume_new (P trees) g) ⇓
        Ok (map (nth_error (snd (bfold_all f' g outs))) (seq 0 k), (i, ahead, fst (bfold_all f' g (firstn k outs)))) /\
      (length outs < k -> clo trees i = gs /\ log trees i = seen).
  Proof.
    intros Hc He f' k.
    destruct (blazy_each_items trees gs seen outs Hc He) as (Dn & ws & Hd & Hcl & Hbw & Hks & <- & iend & Hend & Hi).
    rewrite map_length.
    destruct (bcfoldp_all (P trees) _ (exact1_len1 _) Dn Hd (exact1_path _) f ws iend g Hbw Hend Hi k) as (i & ahead & E & Hk).
    exists i, ahead; split; [|intros Hlt; apply Hcl, Hk; exact Hlt].
    assert (X : forall g os ax, In ax (flat_map preorder (map flat ws)) -> f' g os (with_pos ax) = f g os (xpath (snd ax)) (fst ax)).
    { intros h os ax Hax; apply in_flat_map in Hax as (w' & Hw' & Hax); apply in_map_iff in Hw' as (w & <- & Hw).
      rewrite Forall_forall in Hks; specialize (Hks w Hw); unfold bkept_small in Hks; rewrite Forall_forall in Hks; specialize (Hks ax Hax).
      unfold f', with_pos, xpath; cbn [fst snd]; f_equal; apply map_ext_Forall; eapply Forall_impl; [|exact Hks].
      intros j Hj; symmetry; apply wrap_small; exact Hj. }
    rewrite firstn_map, !bfold_all_map.
    rewrite (bfold_all_ext_in _ (fun g os ax => f g os (xpath (snd ax)) (fst ax)) ws X).
    rewrite (bfold_all_ext_in _ (fun g os ax => f g os (xpath (snd ax)) (fst ax)) (firstn k ws)); [exact E|].
    intros h os ax Hax; apply X; rewrite <- firstn_map in Hax; eapply in_flat_firstn; exact Hax.
  Qed.
End BinaryEach.

(** ** What the specification says *)
Section WholeEach.
  Context {Nd V C It : Type} (gv : Nd -> V * C) (into_iter : C -> It) (poll : It -> option Nd * It).
  Context {A : Type} (c : chain V A).

  Lemma whole_explored_each :
    (forall n t, SpecLazy.whole gv into_iter poll n t -> forall g p ab, exists seen,
      explored gv into_iter poll (visit_each gv c) g p n (fst (walk (at_node_each (nval gv) c) g (annotate p ab t))) seen (snd (walk (at_node_each (nval gv) c) g (annotate p ab t))) /\
      length seen <= length (preorder t)) /\
    (forall it ts, SpecLazy.wholes gv into_iter poll it ts -> exists ns, polled poll it ns /\ forall g p ab i, exists seen,
      let w := walk_list (walk (at_node_each (nval gv) c)) g (mapi (fun i t => annotate (p ++ [i]) ab t) i ts) in
      explored_kids gv into_iter poll (visit_each gv c) g p i ns (fst w) seen (snd w) /\ length seen <= length (flat_map preorder ts)).
  Proof.
    apply sl_whole_both.
    - intros n ts _ (ns & Hp & IH) g p ab; cbn [annotate]; rewrite walk_node.
      change (at_node_each (nval gv) c g (mkPos p ab n)) with (visit_each gv c g p n).
      destruct (visit_each gv c g p n) as [g1 [|b [|]]] eqn:Hv.
      + exists [n]; split; [constructor; exact Hv|cbn; lia].
      + destruct (IH g1 p (ab ++ [n]) 0) as (seen & He & Hl); cbv zeta in He.
        destruct (walk_list _ g1 _) as [g2 ts']; cbn [fst snd] in *; exists (n :: seen); split; [eapply ex_down; eassumption|cbn [preorder length]; lia].
      + exists [n]; split; [constructor; exact Hv|cbn; lia].
    - intros it it' H; exists []; split; [eapply polled_end; exact H|]; intros g p ab i; exists []; split; [constructor|reflexivity].
    - intros it n it' t ts H _ IHt _ (ns & Hp & IHs); exists (n :: ns); split; [eapply polled_more; eassumption|]; intros g p ab i.
      cbn [mapi]; rewrite walk_list_cons; destruct (IHt g (p ++ [i]) ab) as (s1 & H1 & L1).
      destruct (walk _ g _) as [g1 o]; cbn [fst snd] in *; destruct (IHs g1 p ab (S i)) as (s2 & H2 & L2); cbv zeta in H2.
      destruct (walk_list _ g1 _) as [g2 ts']; cbn [fst snd] in *; exists (s1 ++ s2); cbv zeta; split; [econstructor; eassumption|].
      cbn [flat_map]; rewrite !app_length; lia.
  Qed.

  Lemma upto_explored_each (d : nat) (lim : N) :
    forall n t, up_to gv into_iter poll d n t -> forall p, p <> [] -> lim = N.of_nat (pred (length p) + d) ->
      explored gv into_iter poll (visit_each gv (c_prune_depth c_start lim)) tt p n tt (preorder t) (Some (tree_map (nval gv) t)).
  Proof.
    induction d as [|d IH]; intros n t H p Hp El; inversion H; subst.
    - apply ex_cut; unfold visit_each; cbn; rewrite Nat.add_0_r, N.eqb_refl; reflexivity.
    - cbn [preorder tree_map]; eapply ex_down; [unfold visit_each; cbn|eassumption|].
      + rewrite (proj2 (N.eqb_neq _ _)) by lia; reflexivity.
      + match goal with Hf : Forall2 _ ns ts |- _ => revert Hf end; generalize 0; clear -IH Hp; revert ts; induction ns as [|m ns IHn]; intros ts i Hf; inversion Hf; subst; [constructor|].
        cbn [flat_map map]; match goal with |- context [tree_map ?h ?y :: ?z] => change (tree_map h y :: z) with (opt_list (Some (tree_map h y)) ++ z) end.
        econstructor; [eapply IH; [eassumption|destruct p; discriminate|rewrite app_length; cbn; destruct p; [elim Hp; reflexivity|cbn; lia]]|apply IHn; assumption].
  Qed.
End WholeEach.

Section BinaryWholeEach.
  Context {Nd V : Type} (gvcb : Nd -> V * (option Nd * option Nd)).

  Lemma bwhole_explored_each {A} (c : chain V A) :
    (forall n t, SpecLazy.bwhole gvcb n t -> forall g p ab, exists seen,
      bexplored gvcb (visit_each gvcb c) g p n (fst (bwalk (at_node_each (nval gvcb) c) g (bannotate p ab t))) seen (snd (bwalk (at_node_each (nval gvcb) c) g (bannotate p ab t)))) /\
    (forall on o, SpecLazy.bwhole_opt gvcb on o -> forall g p ab, exists seen,
      let w := walk_side (bwalk (at_node_each (nval gvcb) c)) g (option_map (bannotate p ab) o) in
      bexplored_side gvcb (visit_each gvcb c) g p on (fst w) seen (snd w)).
  Proof.
    apply sl_bwhole_both.
    - intros n l r _ IHl _ IHr g p ab; cbn [bannotate]; rewrite bwalk_node.
      change (at_node_each (nval gvcb) c g (mkPos p ab n)) with (visit_each gvcb c g p n).
      destruct (visit_each gvcb c g p n) as [g1 [|b [|]]] eqn:Hv.
      + exists [n]; constructor; exact Hv.
      + destruct (IHl g1 (p ++ [0]) (ab ++ [n])) as (s1 & H1); cbv zeta in H1; destruct (walk_side _ g1 _) as [g2 l']; cbn [fst snd] in *.
        destruct (IHr g2 (p ++ [1]) (ab ++ [n])) as (s2 & H2); cbv zeta in H2; destruct (walk_side _ g2 _) as [g3 r']; cbn [fst snd] in *.
        exists (n :: s1 ++ s2); eapply bex_down; eassumption.
      + exists [n]; constructor; exact Hv.
    - intros g p ab; exists []; constructor.
    - intros n t _ IH g p ab; destruct (IH g p ab) as (s & H); exists s; cbv zeta; cbn [option_map walk_side]; constructor; exact H.
  Qed.

  Lemma bcut_explored_each (lim : N) (d : nat) :
    forall n p, p <> [] -> lim = N.of_nat (pred (length p) + d) ->
      bexplored gvcb (visit_each gvcb (c_prune_depth c_start lim)) tt p n tt (preorder (flat (SpecLazy.bcut gvcb d n)))
        (Some (btree_map (nval gvcb) (SpecLazy.bcut gvcb d n))).
  Proof.
    induction d as [|d IH]; intros n p Hp El; cbn [SpecLazy.bcut].
    - apply bex_cut; unfold visit_each; cbn; rewrite El, Nat.add_0_r, N.eqb_refl; reflexivity.
    - cbn [btree_map flat preorder]; rewrite flat_map_app; eapply bex_down; [unfold visit_each; cbn; rewrite (proj2 (N.eqb_neq _ _)) by lia; reflexivity| |].
      + destruct (fst (snd (gvcb n))) as [m|]; cbn; [rewrite app_nil_r|]; constructor; apply IH; [destruct p; discriminate|rewrite app_length; destruct p; [elim Hp; reflexivity|cbn in *; lia]].
      + destruct (snd (snd (gvcb n))) as [m|]; cbn; [rewrite app_nil_r|]; constructor; apply IH; [destruct p; discriminate|rewrite app_length; destruct p; [elim Hp; reflexivity|cbn in *; lia]].
  Qed.

  Lemma bexplored_trees_det {G B} (visit : G -> list nat -> Nd -> G * outcome B) g i ns g' seen ts : bexplored_trees gvcb visit g i ns g' seen ts ->
    forall g1 seen1 ts1, bexplored_trees gvcb visit g i ns g1 seen1 ts1 -> (g1, seen1, ts1) = (g', seen, ts).
  Proof.
    induction 1 as [g i|g i n ns g1 s1 o g2 s2 ts H1 _ IH]; intros h seen1 ts1 H'; inversion H'; subst; [reflexivity|].
    match goal with H2 : bexplored _ _ _ _ _ _ _ _ |- _ => apply (proj1 (bexplored_det gvcb visit) _ _ _ _ _ _ H1) in H2; injection H2 as -> -> -> end.
    match goal with H2 : bexplored_trees _ _ _ _ _ _ _ _ |- _ => apply IH in H2; injection H2 as -> -> -> end; reflexivity.
  Qed.
End BinaryWholeEach.

Lemma whole_kids_each {Nd V C It A} (gv : Nd -> V * C) (into_iter : C -> It) (poll : It -> option Nd * It) (c : chain V A) ns ts :
  Forall2 (SpecLazy.whole gv into_iter poll) ns ts -> forall g i, exists seen,
    let w := walk_list (walk (at_node_each (nval gv) c)) g (mapi (fun i t => annotate [i] [] t) i ts) in
    explored_kids gv into_iter poll (visit_each gv c) g [] i ns (fst w) seen (snd w) /\ length seen <= length (flat_map preorder ts).
Proof.
  induction 1 as [|n t ns ts H _ IH]; intros g i; [exists []; split; [constructor|reflexivity]|].
  cbn [mapi]; rewrite walk_list_cons; destruct (proj1 (whole_explored_each gv into_iter poll c) n t H g [i] []) as (s1 & H1 & L1).
  destruct (walk _ g _) as [g1 o]; cbn [fst snd] in *; destruct (IH g1 (S i)) as (s2 & H2 & L2); cbv zeta in H2.
  destruct (walk_list _ g1 _) as [g2 ts']; cbn [fst snd] in *; exists (s1 ++ s2); cbv zeta; split; [econstructor; eassumption|].
  cbn [flat_map]; rewrite !app_length; lia.
Qed.

Lemma bwhole_trees_each {Nd V A} (gvcb : Nd -> V * (option Nd * option Nd)) (c : chain V A) ns ts :
  Forall2 (SpecLazy.bwhole gvcb) ns ts -> forall g i, exists seen,
    let w := bwalk_all (at_node_each (nval gvcb) c) g (mapi (fun i t => bannotate [i] [] t) i ts) in
    bexplored_trees gvcb (visit_each gvcb c) g i ns (fst w) seen (snd w).
Proof.
  induction 1 as [|n t ns ts H _ IH]; intros g i; [exists []; constructor|].
  cbn [mapi bwalk_all]; destruct (proj1 (bwhole_explored_each gvcb c) n t H g [i] []) as (s1 & H1).
  destruct (bwalk _ g _) as [g1 o]; cbn [fst snd] in *; destruct (IH g1 (S i)) as (s2 & H2); cbv zeta in H2.
  destruct (bwalk_all _ g1 _) as [g2 ts']; cbn [fst snd] in *; exists (s1 ++ s2); cbv zeta; econstructor; eassumption.
Qed.

Lemma upto_kids_each {Nd V C It} (gv : Nd -> V * C) (into_iter : C -> It) (poll : It -> option Nd * It) d ns ts :
  Forall2 (up_to gv into_iter poll d) ns ts -> forall i,
    explored_kids gv into_iter poll (visit_each gv (c_prune_depth c_start (N.of_nat d))) tt [] i ns tt (flat_map preorder ts) (map (tree_map (nval gv)) ts).
Proof.
  induction 1 as [|n t ns ts H _ IH]; intros i; [constructor|]; cbn [flat_map map].
  change (tree_map (nval gv) t :: map (tree_map (nval gv)) ts) with (opt_list (Some (tree_map (nval gv) t)) ++ map (tree_map (nval gv)) ts).
  econstructor; [apply (upto_explored_each gv into_iter poll d _ n t H [i]); [discriminate|reflexivity]|apply IH].
Qed.

Lemma bcut_trees_each {Nd V} (gvcb : Nd -> V * (option Nd * option Nd)) d ns : forall i,
  bexplored_trees gvcb (visit_each gvcb (c_prune_depth c_start (N.of_nat d))) tt i ns tt (flat_map (fun n => preorder (flat (SpecLazy.bcut gvcb d n))) ns)
    (map (fun n => btree_map (nval gvcb) (SpecLazy.bcut gvcb d n)) ns).
Proof.
  induction ns as [|n ns IH]; intros i; [constructor|]; cbn [flat_map map].
  match goal with |- context [?y :: map ?h ns] => change (y :: map h ns) with (opt_list (Some y) ++ map h ns) end.
  econstructor; [apply bcut_explored_each; [discriminate|reflexivity]|apply IH].
Qed.
