(** * ProofsMapPathPruneEach: map_path behind an n-ary prune, over a collection. *)
From Verif Require Import Prelim PrelimFacts Spec SpecFacts SpecPipe SpecPipeColl SpecDrift SpecMapPath SpecMapPathPrune SpecObs ModelNode NodeFacts ModelPre ModelPipe ModelPipeColl
  ModelMapPath ModelMapPathPrune ProofsPlain Slots PipeCore PipeBase PipeChain PipeEnd PipeCollEnd ProofsPipe PipeFinal ProofsPipeColl PipeCollFinal PipeExact ProofsExact
  ProofsMapPath ProofsMapPathEnd ProofsMapPathChain
  ProofsMapPathPrune ProofsMapPathPruneSim ProofsMapPathPruneUb ProofsMapPathPruneEnd ProofsMapPathPruneFinal ProofsMapPathPruneDeep ProofsLazyLeavesBfs PipeCollBase.

(** ** A pipeline that goes on where another one reads freed memory *)
Section Past.
  Context {A : Type} (P : pipe A) (rest : list (A * list N)).

  Definition pop (p : list N) (l : list (A * list N)) : option A * (p_state P + list N * list (A * list N)) :=
    match l with [] => (None, inr (p, [])) | (a, q) :: l' => (Some a, inr (q, l')) end.
  Definition past_next (f : nat) (s : p_state P + list N * list (A * list N)) : Res (option A * (p_state P + list N * list (A * list N))) :=
    match s with
    | inl i => match p_next P f i with Ok (o, i') => Ok (o, inl i') | UB => Ok (pop [] rest) | Panic => Panic | OutOfFuel => OutOfFuel end
    | inr (p, l) => Ok (pop p l)
    end.
  Definition past_pipe : pipe A :=
    mkPipe (p_state P + list N * list (A * list N)) (inl (p_init P)) past_next (fun s => match s with inl i => p_path P i | inr (p, _) => p end) (fun s => s).

  Definition at_end (s : p_state past_pipe) : Prop := exists p, s = inr (p, []).
  Lemma past_ended : ended past_pipe at_end.
  Proof. intros s (p & ->); exists (inr (p, [])); split; [cbn; now_conv|exists p; reflexivity]. Qed.

  Section Items.
    Context {X : Type} (pok : list N -> X -> Prop) (pth : X -> list N).
    Lemma past_list l : Forall (fun ax => pok (pth (snd ax)) (snd ax)) l -> forall p, exists p',
      items past_pipe pok (inr (p, map (fun ax => (fst ax, pth (snd ax))) l)) l (inr (p', [])).
    Proof.
      induction 1 as [|[a x] l Hx _ IH]; intros p; [exists p; apply it_nil; cbn; now_conv|].
      destruct (IH (pth x)) as (p' & Hi); exists p'; eapply it_cons; [cbn; now_conv|exact Hx|exact Hi].
    Qed.
    Lemma past_items s l l2 : rest = map (fun ax => (fst ax, pth (snd ax))) l2 -> Forall (fun ax => pok (pth (snd ax)) (snd ax)) l2 ->
      blows P pok s l -> exists p, items past_pipe pok (inl s) (l ++ l2) (inr (p, [])).
    Proof.
      intros Er Hl2; induction 1 as [s Hn|s a x s1 l Hn Hp _ IH].
      - cbn [app].
        assert (Hn' : (fun f => p_next past_pipe f (inl s)) ⇓ Ok (pop [] rest)).
        { destruct Hn as [F HF]; exists F; intros f Hf; cbn; rewrite (HF f Hf); reflexivity. }
        rewrite Er in Hn'; destruct l2 as [|[a x] l2]; [exists []; apply it_nil; exact Hn'|].
        inversion Hl2 as [|? ? H1 H2]; subst; destruct (past_list l2 H2 (pth x)) as (p' & Hi); exists p'; eapply it_cons; [exact Hn'|exact H1|exact Hi].
      - destruct IH as (p & Hi); exists p; cbn [app]; eapply it_cons with (s1 := inl s1); [|exact Hp|exact Hi].
        destruct Hn as [F HF]; exists F; intros f Hf; cbn; rewrite (HF f Hf); reflexivity.
    Qed.
  End Items.

  Section Agree.
    Context {O C St : Type} (start : C -> St) (must_close : St -> list N -> Res bool) (drained : St -> option C)
      (close_top : St -> Res (St + O * C)) (push : St -> A -> list N -> Res St).
    Notation body := (consume_body P must_close drained close_top push).
    Notation body' := (consume_body past_pipe must_close drained close_top push).
    Notation next := (consume_next P start must_close drained close_top push).
    Notation next' := (consume_next past_pipe start must_close drained close_top push).

    Lemma past_stays fuel : forall q ahead st o i ah c, loop body' fuel (inr q, ahead, st) = Ok (o, (i, ah, c)) -> exists q', i = inr q'.
    Proof.
      induction fuel as [|fuel IH]; intros [p l] ahead st o i ah c E; [discriminate|]; cbn [loop] in E.
      unfold consume_body at 1 in E; cbn [p_next past_pipe past_next] in E.
      destruct ahead as [item|]; [|destruct l as [|[item q] l]; cbn [pop] in E]; cbn [bindR p_path past_pipe] in E.
      - destruct (loop (close_body must_close close_top p) fuel st) as [[st1|[out c1]]| | |]; cbn [bindR] in E; try discriminate.
        + destruct (push st1 item p) as [st2| | |]; cbn [bindR] in E; try discriminate; exact (IH _ _ _ _ _ _ _ E).
        + injection E as _ <- _ _; eauto.
      - destruct (loop (drain_body drained close_top) fuel st) as [[r c1]| | |]; cbn [bindR] in E; try discriminate; injection E as _ <- _ _; eauto.
      - destruct (loop (close_body must_close close_top q) fuel st) as [[st1|[out c1]]| | |]; cbn [bindR] in E; try discriminate.
        + destruct (push st1 item q) as [st2| | |]; cbn [bindR] in E; try discriminate; exact (IH _ _ _ _ _ _ _ E).
        + injection E as _ <- _ _; eauto.
    Qed.

    Lemma past_loop fuel : forall i ahead st o i' ah c, loop body' fuel (inl i, ahead, st) = Ok (o, (i', ah, c)) ->
      match i' with inl j => loop body fuel (i, ahead, st) = Ok (o, (j, ah, c)) | inr _ => loop body fuel (i, ahead, st) = UB end.
    Proof.
      induction fuel as [|fuel IH]; intros i ahead st o i' ah c E; [discriminate|]; cbn [loop] in E |- *.
      unfold consume_body at 1 in E; unfold consume_body at 1 3.
      cbn [p_next past_pipe past_next] in E.
      destruct ahead as [item|]; [|destruct (p_next P fuel i) as [[[item|] i1]| | |] eqn:E1; try discriminate]; cbn [bindR p_path past_pipe] in E |- *.
      - destruct (loop (close_body must_close close_top (p_path P i)) fuel st) as [[st1|[out c1]]| | |]; cbn [bindR] in E |- *; try discriminate.
        + destruct (push st1 item (p_path P i)) as [st2| | |]; cbn [bindR] in E |- *; try discriminate; exact (IH _ _ _ _ _ _ _ E).
        + injection E as <- <- <- <-; reflexivity.
      - destruct (loop (close_body must_close close_top (p_path P i1)) fuel st) as [[st1|[out c1]]| | |]; cbn [bindR] in E |- *; try discriminate.
        + destruct (push st1 item (p_path P i1)) as [st2| | |]; cbn [bindR] in E |- *; try discriminate; exact (IH _ _ _ _ _ _ _ E).
        + injection E as <- <- <- <-; reflexivity.
      - destruct (loop (drain_body drained close_top) fuel st) as [[r c1]| | |]; cbn [bindR] in E |- *; try discriminate; injection E as <- <- <- <-; reflexivity.
      - enough (Hq : exists q, i' = inr q) by (destruct Hq as (q & ->); reflexivity).
        destruct rest as [|[a q] l]; cbn [pop bindR] in E.
        + destruct (loop (drain_body drained close_top) fuel st) as [[r c1]| | |]; cbn [bindR] in E; try discriminate; injection E as _ <- _ _; eauto.
        + cbn [p_path past_pipe] in E.
          destruct (loop (close_body must_close close_top q) fuel st) as [[st1|[out c1]]| | |]; cbn [bindR] in E; try discriminate.
          * destruct (push st1 a q) as [st2| | |]; cbn [bindR] in E; try discriminate; exact (past_stays _ _ _ _ _ _ _ _ E).
          * injection E as _ <- _ _; eauto.
    Qed.

    Lemma past_next_agree fuel i ahead c o i' ah c' : next' fuel (inl i, ahead, c) = Ok (o, (i', ah, c')) ->
      match i' with inl j => next fuel (i, ahead, c) = Ok (o, (j, ah, c')) | inr _ => next fuel (i, ahead, c) = UB end.
    Proof. apply past_loop. Qed.

    (** Calls: the results are the same up to the one that fails. *)
    Lemma past_calls (res : nat -> list (option O)) i ahead c : (forall m, exists s, calls next' m (inl i, ahead, c) ⇓ Ok (res m, s)) -> forall m,
      (exists j ah c', calls next' m (inl i, ahead, c) ⇓ Ok (res m, (inl j, ah, c')) /\ calls next m (i, ahead, c) ⇓ Ok (res m, (j, ah, c'))) \/
      (exists k s, k < m /\ calls next k (i, ahead, c) ⇓ Ok (res k, s) /\ calls next (S k) (i, ahead, c) ⇓ UB).
    Proof.
      intros Hall; induction m as [|m IH].
      - left; exists i, ahead, c; destruct (Hall 0) as (s & Hs); pose proof (conv_fun _ _ _ Hs (calls_0 next' _)) as E; injection E as -> ->; split; apply calls_0.
      - destruct IH as [(j & ah & c' & Hc & Hc2)|(k & s & Hk & Hc)]; [|right; exists k, s; split; [lia|exact Hc]].
        destruct (Hall (S m)) as (s & Hs); destruct (calls_snoc_inv next' m _ _ _ _ _ Hc Hs) as (o & Ho & Eo); destruct s as [[i' ah'] c1].
        assert (Hn : match i' with inl j' => (fun f => next f (j, ah, c')) ⇓ Ok (o, (j', ah', c1)) | inr _ => (fun f => next f (j, ah, c')) ⇓ UB end).
        { destruct Ho as [F HF]; destruct i' as [j'|q]; exists F; intros f Hf; exact (past_next_agree f _ _ _ _ _ _ _ (HF f Hf)). }
        destruct i' as [j'|q].
        + left; exists j', ah', c1; split; [exact Hs|]; rewrite Eo, <- Nat.add_1_r; eapply calls_app; [exact Hc2|]; eapply calls_S; [exact Hn|apply calls_0].
        + right; exists m; eexists; split; [lia|]; split; [exact Hc2|]; rewrite <- Nat.add_1_r.
          destruct Hc2 as [F1 H1], Hn as [F2 H2]; exists (Nat.max F1 F2); intros f Hf; rewrite calls_plus, H1 by lia; cbn [bindR calls]; rewrite H2 by lia; reflexivity.
    Qed.
  End Agree.
End Past.

Lemma blows_map {A X Y} (P : pipe A) (pok : list N -> X -> Prop) (pok' : list N -> Y -> Prop) (h : X -> Y) (Q : A * X -> Prop) s l :
  (forall p ax, Q ax -> pok p (snd ax) -> pok' p (h (snd ax))) -> Forall Q l -> blows P pok s l -> blows P pok' s (map (fun ax => (fst ax, h (snd ax))) l).
Proof.
  intros Hp HQ Hb; induction Hb as [s Hn|s a x s1 l Hn Hx _ IH]; [apply bl_now; exact Hn|].
  inversion HQ as [|? ? H1 H2]; subst; eapply bl_step; [exact Hn|exact (Hp _ (a, x) H1 Hx)|exact (IH H2)].
Qed.

Lemma walk_list_pack {G1 G2 X T} (to : G1 -> G2) (from : G2 -> G1) (v1 : G1 -> X -> G1 * outcome T) (v2 : G2 -> X -> G2 * outcome T) ts :
  (forall g, from (to g) = g) ->
  (forall g x, In x (flat_map preorder ts) -> v2 (to g) x = let '(g1, o) := v1 g x in (to g1, o)) ->
  forall g, walk_list (walk v2) (to g) ts = let '(g1, o) := walk_list (walk v1) g ts in (to g1, o).
Proof.
  intros Hft; induction ts as [|t ts IH]; intros Hv g; [rewrite !walk_list_nil; reflexivity|].
  rewrite !walk_list_cons, (walk_pack to from v1 v2 t Hft) by (intros g1 x Hx; apply Hv; cbn [flat_map]; apply in_or_app; auto).
  destruct (walk v1 g t) as [g1 o]; rewrite IH by (intros g2 x Hx; apply Hv; cbn [flat_map]; apply in_or_app; auto).
  destruct (walk_list (walk v1) g1 ts); reflexivity.
Qed.

Lemma seq_firstn_some {B} (l : list B) : forall k, k <= length l -> map (nth_error l) (seq 0 k) = map Some (firstn k l).
Proof.
  induction l as [|b l IH]; intros [|k] Hk; cbn [length] in Hk; try reflexivity; [lia|].
  cbn [seq map firstn nth_error]; f_equal; rewrite <- seq_shift, map_map; cbn [nth_error]; apply IH; lia.
Qed.

Lemma fits_shift {A} m (t : tree A) : forall k, fits (S m) (S k) t <-> fits m k t.
Proof.
  induction t as [v ts IH] using tree_ind'; intros k; rewrite !fits_node, <- Nat.succ_le_mono.
  enough (E : Forall (fits (S m) (S (S k))) ts <-> Forall (fits m (S k)) ts) by (rewrite E; reflexivity).
  induction IH as [|t ts Ht _ IHl]; [split; constructor|]; rewrite !Forall_cons_iff, Ht, IHl; reflexivity.
Qed.
Lemma fits_root {A} m (t : tree A) : 0 < m -> fits m 1 t <-> Forall (fun p => length p < m) (node_paths t).
Proof.
  destruct m as [|m]; [lia|]; intros _; rewrite fits_shift, fits_paths; split; intros Hf; (eapply Forall_impl; [|exact Hf]); cbv beta; intros p Hp; lia.
Qed.

Lemma start_vec {V A} (c : chain V A) : reported c (dclos_init [0%N] c) [] = [] \/ reported c (dclos_init [0%N] c) [] = [0%N].
Proof. induction c; cbn; auto. Qed.

Section Each.
  Variable grow : nat -> nat.
  Hypothesis Hgrow : forall c, c < grow c.
  Context {Nd V A B D G : Type} (gvc : Nd -> V * list Nd) (nt : Nd -> tree Nd).
  Hypothesis H : node_tree gvc nt.
  Context (c1 : chain V A) (f : G -> list N -> A -> G * B) (c2 : chain B D).
  Hypothesis Hp : has_prune c1 = true.
  Notation val := (fun x : pos Nd => nval gvc (pos_here x)).
  Notation dep := (fun x : pos Nd => N.of_nat (cdepth x)).
  Notation hv := (hvis grow val (@rpath Nd) dep c1 f).
  Notation pth := (fun st : dclos c1 * pointer * G * bool => reported c1 (fst (fst (fst st))) []).
  Notation uv := (uvis hv pth dep c2).
  Notation upth := (fun (g : (dclos c1 * pointer * G * bool) * dclos c2) (x : pos Nd) => reported c2 (snd g) (pth (fst g))).
  Notation ucur := (fun g : (dclos c1 * pointer * G * bool) * dclos c2 => reported c2 (snd g) (pth (fst g))).
  Notation start_ptr := (first_pointer grow (reported c1 (dclos_init [0%N] c1) [])).

  Lemma spec_walk_each trees s : small_collection trees -> (N.of_nat (length (flat_map (fun n => preorder (nt n)) trees)) <= usize_max)%N ->
    walk_all uv (pack_state c1 c2 s) (each_positions (map nt trees)) =
    let '(s', o) := walk_all (after_prunes_each grow (nval gvc) c1 f c2) s (each_positions (map nt trees)) in (pack_state c1 c2 s', o).
  Proof.
    intros Hc Hb; unfold walk_all; rewrite each_positions_map; apply (walk_list_pack (pack_state c1 c2) (unpack_state c1 c2)).
    - intros [[[[? ?] ?] ?] ?]; reflexivity.
    - intros [[[[gs1 p] g] gs2] fr] x Hx; unfold after_prunes_each, after_prunes_by, uvis, hvis, mvis, dvis, at_node_each_exact; cbn [pack_state fst snd].
      pose proof (each_rooted nt trees) as Hro; rewrite Forall_forall in Hro; rewrite (rpath_rooted x) by (apply Hro; exact Hx).
      rewrite (each_xpath nt trees x Hc Hb Hx); unfold cdepth.
      pose proof (dvisit_cursor c1 Hp gs1 (map N.of_nat (pos_path x)) (N.of_nat (pred (length (pos_path x)))) (nval gvc (pos_here x)) []) as Hd.
      destruct (dvisit c1 gs1 (map N.of_nat (pos_path x)) (N.of_nat (pred (length (pos_path x)))) (nval gvc (pos_here x))) as [gs1' [|a dn]]; cbn [fst snd]; [reflexivity|].
      assert (Hl : length (reported c1 gs1' []) = length (pos_path x)) by (rewrite Hd, drift_length, map_length; reflexivity).
      destruct (f g _ a) as [g' b]; cbn [fst snd]; rewrite Hl.
      destruct (dvisit c2 gs2 (reported c1 gs1' []) (N.of_nat (pred (length (pos_path x)))) b) as [gs2' o2]; reflexivity.
  Qed.

  Lemma each_behind_prune trees g : small_collection trees -> (N.of_nat (length (flat_map (fun n => preorder (nt n)) trees)) <= usize_max)%N ->
    let P := map_path_each_after grow gvc trees c1 f g in
    let C := each_chain P c2 in
    let '((gs1, p, g', gs2, freed), outs) :=
      walk_all (after_prunes_each grow (nval gvc) c1 f c2) (dclos_init [0%N] c1, start_ptr, g, dclos_init [0%N] c2, false) (each_positions (map nt trees)) in
    if freed then exists k s, k <= length outs /\ calls (trees_next C) k (trees_new C) ⇓ Ok (map Some (firstn k outs), s) /\
      calls (trees_next C) (S k) (trees_new C) ⇓ UB
    else forall k, exists s ahead, calls (trees_next C) k (trees_new C) ⇓ Ok (map (nth_error outs) (seq 0 k), (s, ahead, tt)) /\
      (length outs < k ->
        mem_closures grow coll_depth [0%N] (into_pipeline_each gvc trees) c1 (fst (chain_first coll_depth [0%N] P c2 s)) = dforget c1 gs1 /\
        snd (chain_first coll_depth [0%N] P c2 s) = g' /\ closures coll_depth [0%N] P c2 s = dforget c2 gs2).
  Proof.
    intros Hc Hb P C.
    assert (HL : forall p (x : pos Nd), length p = length (rpath x) -> coll_depth p = Ok (N.of_nat (cdepth x))).
    { intros p x Hl; unfold rpath, cdepth in *; unfold xpath in *; destruct (pos_path x) as [|i q]; cbn [length map] in Hl; [|rewrite map_length in Hl];
        destruct p; try discriminate; unfold coll_depth; cbn [length pred] in *; injection Hl as Hl; rewrite ?Hl; reflexivity. }
    set (r0 := mapi (fun i n => annotate [i] [] (nt n)) 0 trees).
    assert (Hbound : (N.of_nat (fsize ([] ++ r0)) <= usize_max)%N) by (cbn [app]; unfold r0; rewrite fsize_each; exact Hb).
    assert (Hstart : vec_ok (fsize ([] ++ r0)) [0%N]).
    { constructor; [|constructor]; rewrite N.add_0_l; exact Hbound. }
    destruct (nary_coll_sim gvc nt trees H Hc) as (R0 & Hs0 & Hi0).
    assert (HE : forall p (x : pos Nd), pok_exact1 p x -> p = rpath x /\ segs_ok p).
    { intros p x [Hx Hr]; rewrite rpath_rooted by exact Hr; apply exact_base; exact Hx. }
    destruct (mem_chain_sim grow Hgrow (into_pipeline_each gvc trees) coll_depth [0%N] val (@rpath Nd) dep pok_exact1 HE HL
      (fun s g d r => R0 s g d r /\ Forall rooted (flat_map preorder (d ++ r))) (simulates_keeps _ _ _ _ rooted Hs0) [] r0 (conj Hi0 (each_rooted nt trees)) Hbound Hstart c1 Hp) as (R1 & HR1).
    pose proof (stage_sim grow (into_pipeline_each gvc trees) coll_depth [0%N] val (@rpath Nd) dep _ _ c1 f g Hp R1 HR1) as Hst.
    pose proof (stage_init grow (into_pipeline_each gvc trees) coll_depth [0%N] val (@rpath Nd) dep _ _ c1 f g R1 HR1) as Hin.
    destruct (uchain_sim P hv pth (@rpath Nd) dep (fun st => snd st) coll_depth [0%N] _ Hst (hvis_len grow val (@rpath Nd) dep c1 f Hp) HL _ _ _ Hin Hbound Hstart c2) as (R & HR & Hcl & Hi).
    pose proof (simu_items _ _ _ _ _ _ HR _ _ _ _ Hi) as Hit; cbv zeta in Hit; cbn [app] in Hit.
    pose proof (walk_list_ext_paths uv upth ucur (fun x => length (rpath x)) (fun g x => eq_refl)) as Hext.
    specialize (Hext ltac:(intros g1 x g2 E; pose proof (uvis_cursor grow val (@rpath Nd) dep c1 f c2 Hp g1 x) as Hcu; rewrite E in Hcu; exact Hcu)
      ltac:(intros g1 x g2 a dn E; pose proof (uvis_cursor grow val (@rpath Nd) dep c1 f c2 Hp g1 x) as Hcu; rewrite E in Hcu; exact Hcu)).
    specialize (Hext r0 0 (dclos_init [0%N] c1, start_ptr, g, false, dclos_init [0%N] c2) [] (each_deep nt trees) (Nat.le_0_l _) eq_refl).
    assert (Ew : walk_all uv (dclos_init [0%N] c1, start_ptr, g, false, dclos_init [0%N] c2) r0 =
      let '(g1, o) := walk_all (with_rep uv upth) (dclos_init [0%N] c1, start_ptr, g, false, dclos_init [0%N] c2) r0 in (g1, map (tree_map fst) o)).
    { apply walk_all_omap; intros g1 x _; unfold with_rep; destruct (uv g1 x) as [g2 [|a dn]]; reflexivity. }
    pose proof (spec_walk_each trees (dclos_init [0%N] c1, start_ptr, g, dclos_init [0%N] c2, false) Hc Hb) as Es; cbn [pack_state] in Es.
    rewrite each_positions_map in Es |- *; fold r0 in Es |- *; rewrite Ew in Es; unfold walk_all in Es, Hit |- *.
    destruct (walk_list (walk (with_rep uv upth)) (dclos_init [0%N] c1, start_ptr, g, false, dclos_init [0%N] c2) r0) as [st o].
    destruct (walk_list (walk (after_prunes_each grow (nval gvc) c1 f c2)) (dclos_init [0%N] c1, start_ptr, g, dclos_init [0%N] c2, false) r0) as [[[[[gs1 p] g'] gs2] freed] outs].
    cbn [pack_state] in Es; injection Es as -> <-; cbn [fst snd app] in Hit, Hext; destruct Hext as (_ & _ & Hext).
    set (ws := map (tree_map (fun ax : D * (pos Nd * list N) => (fst ax, rep_pos (snd (snd ax))))) o).
    assert (Hbw : Forall (fun t => exists i, below [i] t) ws).
    { apply Forall_map; eapply Forall_impl; [|exact Hext]; intros t (i & Hx); exists (N.to_nat i).
      pose proof (ext_below _ [i] Hx) as He; rewrite tree_map_comp in He; exact He. }
    assert (Hne : Forall (fun ax : D * (pos Nd * list N) => snd (snd ax) <> []) (flat_map preorder o)).
    { apply Forall_forall; intros ax Hin'; apply in_flat_map in Hin' as (t & Ht & Hin'); rewrite Forall_forall in Hext.
      destruct (Hext t Ht) as (i & Hx); pose proof (ext_long t [i] Hx ax Hin') as Hl; cbn in Hl; destruct (snd (snd ax)); [cbn in Hl; lia|discriminate]. }
    assert (Eo : map (tree_map fst) ws = map (tree_map fst) o) by (unfold ws; rewrite map_map; apply map_ext; intros t; rewrite tree_map_comp; reflexivity).
    assert (Ep : flat_map preorder ws = map (fun ax => (fst ax, rep_pos (snd (snd ax)))) (flat_map preorder o)) by (unfold ws; rewrite flat_preorder_map; reflexivity).
    assert (Hlen : forall p (x : pos unit), p <> [] -> length (pos_path x) = length p -> pok_len1 p x).
    { intros q x Hq E; split; [symmetry; exact E|]; unfold rooted; destruct (pos_path x); [destruct q; [congruence|discriminate]|discriminate]. }
    destruct freed.
    - destruct Hit as (l & rest & Hbl & El).
      rewrite El in Hne; apply Forall_app in Hne as [Hn1 Hn2].
      set (l1 := map (fun ax : D * (pos Nd * list N) => (fst ax, rep_pos (snd (snd ax)))) l); set (l2 := map (fun ax : D * (pos Nd * list N) => (fst ax, rep_pos (snd (snd ax)))) rest).
      assert (Hb1 : blows C (@pok_len1 unit) (p_init C) l1).
      { refine (blows_map C pok_rep _ (fun xq : pos Nd * list N => rep_pos (snd xq)) _ _ _ _ Hn1 Hbl).
        intros q [a [x q']] Hq [-> _]; cbn [snd] in *; apply Hlen; [exact Hq|cbn; apply map_length]. }
      assert (Hl2 : Forall (fun ax : D * pos unit => pok_len1 (xpath (snd ax)) (snd ax)) l2).
      { unfold l2; apply Forall_map; eapply Forall_impl; [|exact Hn2]; intros [a [x q]] Hq; cbn [snd fst] in *; apply Hlen.
        - unfold xpath; cbn; destruct q; [congruence|discriminate].
        - unfold xpath; rewrite map_length; reflexivity. }
      set (Q := past_pipe C (map (fun ax : D * pos unit => (fst ax, xpath (snd ax))) l2)).
      destruct (past_items C _ (@pok_len1 unit) xpath _ l1 l2 eq_refl Hl2 Hb1) as (pe & Hi2).
      assert (El2 : l1 ++ l2 = flat_map preorder ws) by (unfold l1, l2; rewrite <- map_app, <- El, Ep; reflexivity).
      rewrite El2 in Hi2.
      pose proof (trees_all Q (@pok_len1 unit) (fun p x Hx => Hx) (at_end C _) (past_ended C _) ws _ Hbw (ex_intro _ pe eq_refl) Hi2) as Hall.
      destruct (past_calls C (map (fun ax : D * pos unit => (fst ax, xpath (snd ax))) l2) (fun _ : unit => []) (fun st path => Ok (length path <=? length st)) is_nil (@trees_close D)
        (fun st item _ => Ok (TNode item [] :: st)) (fun k => map (nth_error (map (tree_map fst) ws)) (seq 0 k)) (p_init C) None tt) with (m := S (length ws)) as [(j & ah & c' & Hj & _)|(k & s & Hk & Hck & Hub)].
      + intros m; destruct (Hall m) as (i & ah & Hm & _); eauto.
      + destruct (Hall (S (length ws))) as (i & ah' & Hm & He); destruct (He ltac:(lia)) as (pp & ->).
        pose proof (conv_fun _ _ _ Hj Hm) as E; discriminate.
      + exists k, s; assert (Hk' : k <= length ws) by lia; split; [unfold ws in Hk'; rewrite map_length in Hk' |- *; exact Hk'|]; split; [|exact Hub].
        rewrite Eo in Hck.
        replace (map Some (firstn k (map (tree_map fst) o))) with (map (nth_error (map (tree_map fst) o)) (seq 0 k)); [exact Hck|].
        apply seq_firstn_some; rewrite map_length; unfold ws in Hk'; rewrite map_length in Hk'; exact Hk'.
    - destruct Hit as (s' & Hit & HRs).
      assert (Hend : ended C (fun i => R i (gs1, p, g', false, gs2) [] [])).
      { intros i HRi; pose proof (su_next _ _ _ _ _ _ HR _ _ _ _ HRi None [] [] _ eq_refl) as Hn; cbn [snd fst] in Hn; destruct Hn as (s1 & Hc1 & HR1' & _); eauto. }
      assert (Hi2 : items C (@pok_len1 unit) (p_init C) (flat_map preorder ws) s').
      { rewrite Ep; refine (items_map C (fun p xq => pok_rep p xq /\ snd xq <> []) _ (fun xq => rep_pos (snd xq)) _ _ _ _ _).
        - intros q x [[-> Hs] Hq]; apply Hlen; [exact Hq|cbn; apply map_length].
        - apply items_keep; assumption. }
      intros k; destruct (trees_all C (@pok_len1 unit) (fun p x Hx => Hx) _ Hend ws s' Hbw HRs Hi2 k) as (i & ah & Hk & He).
      exists i, ah; rewrite Eo in Hk; split; [exact Hk|]; rewrite map_length; intros Hlt.
      assert (Hlt' : length ws < k) by (unfold ws; rewrite map_length; exact Hlt); specialize (He Hlt').
      destruct (Hcl _ _ _ _ He) as [E1 E2]; unfold hR in E2; cbn [fst snd] in E2; split; [|split; [apply E2|exact E1]].
      destruct E2 as (E2 & _); apply (ms_clos _ _ _ _ _ _ _ _ _ _ _ HR1 _ _ _ _ E2).
  Qed.

  Notation vis := (after_prunes_each grow (nval gvc) c1 f c2).
  Notation start := (dclos_init [0%N] c1, start_ptr).

  Lemma each_cursor gs (x : pos Nd) : let '(gs', o) := at_node_each_exact (nval gvc) c1 gs x in
    match o with
    | Drop => reported c1 gs' [] = reported c1 gs [] \/ reported c1 gs' [] = drift (length (pos_path x)) (reported c1 gs [])
    | Keep _ _ => reported c1 gs' [] = drift (length (pos_path x)) (reported c1 gs [])
    end.
  Proof.
    pose proof (dvisit_cursor c1 Hp gs (map N.of_nat (pos_path x)) (N.of_nat (pred (length (pos_path x)))) (nval gvc (pos_here x)) []) as Hc; rewrite map_length in Hc; exact Hc.
  Qed.
  Lemma each_first : first_buffer grow (reported c1 (dclos_init [0%N] c1) []) start_ptr.
  Proof.
    pose proof (Hgrow 0) as Hg; destruct (start_vec c1) as [-> | ->]; unfold first_buffer, first_pointer; cbn [length pushes Nat.ltb Nat.leb shown taken room buffer];
      repeat split; auto; try lia; intros; congruence.
  Qed.

  Lemma each_annotated trees : Forall (deep (fun x : pos Nd => length (map wrap (pos_path x))) 1) (each_positions (map nt trees)).
  Proof.
    rewrite each_positions_map; apply Forall_forall; intros t Ht; destruct (in_mapi _ _ _ _ Ht) as (i & n & -> & _ & _); exact (annotate_deep (nt n) [i] []).
  Qed.

  Lemma walk_list_safe ts : forall s, Forall (deep (fun x : pos Nd => length (map wrap (pos_path x))) 1) ts ->
    Forall (fun x => length (pos_path x) <= grow 0) (flat_map preorder ts) -> safe grow c1 c2 s -> safe grow c1 c2 (fst (walk_list (walk vis) s ts)).
  Proof.
    induction ts as [|t ts IH]; intros s Hd Hg Hs; [rewrite walk_list_nil; exact Hs|].
    inversion Hd as [|? ? Hd1 Hd2]; subst; cbn [flat_map] in Hg; apply Forall_app in Hg as [Hg1 Hg2]; rewrite walk_list_cons.
    pose proof (walk_safe grow Hgrow c1 (at_node_each_exact (nval gvc) c1) (fun p => pred (length p)) f c2 each_cursor t 1 s Hd1 Hg1 Hs ltac:(lia)) as Hw.
    fold (@after_prunes_each Nd V A B D G grow (nval gvc) c1 f c2) in Hw.
    destruct (walk vis s t) as [s1 o]; destruct Hw as [Hs1 _]; specialize (IH s1 Hd2 Hg2 Hs1); destruct (walk_list (walk vis) s1 ts); exact IH.
  Qed.

  Lemma walk_list_holds ts : forall s, Forall (deep (fun x : pos Nd => length (map wrap (pos_path x))) 1) ts -> holds grow c1 c2 s ->
    let '(s', os) := walk_list (walk vis) s ts in holds grow c1 c2 s' /\ (fails c1 c2 s' = true \/ Forall (fits (grow 0) 1) os).
  Proof.
    induction ts as [|t ts IH]; intros s Hd Hs; [rewrite walk_list_nil; auto|].
    inversion Hd as [|? ? Hd1 Hd2]; subst; rewrite walk_list_cons.
    pose proof (walk_holds grow Hgrow c1 (at_node_each_exact (nval gvc) c1) (fun p => pred (length p)) f c2 each_cursor t 1 s Hd1 Hs ltac:(lia)) as Hw.
    fold (@after_prunes_each Nd V A B D G grow (nval gvc) c1 f c2) in Hw.
    destruct (walk vis s t) as [s1 o]; destruct Hw as (Hs1 & _ & Ho); specialize (IH s1 Hd2 Hs1).
    pose proof (walk_list_mono vis (fails c1 c2) (after_mono grow c1 (at_node_each_exact (nval gvc) c1) (fun p => pred (length p)) f c2) ts s1) as Hm.
    destruct (walk_list (walk vis) s1 ts) as [s2 os]; destruct IH as (Hs2 & Hos); split; [exact Hs2|].
    destruct Ho as [Ho|Ho]; [left; apply Hm; exact Ho|]; destruct Hos as [Hos|Hos]; [left; exact Hos|right].
    destruct o; cbn; [constructor; assumption|exact Hos].
  Qed.

  Lemma each_behind_shallow trees g : small_collection trees -> (N.of_nat (length (flat_map (fun n => preorder (nt n)) trees)) <= usize_max)%N ->
    Forall (fun n => Forall (fun p => length p < grow 0) (node_paths (nt n))) trees ->
    let C := each_chain (map_path_each_after grow gvc trees c1 f g) c2 in exists outs, yields (trees_next C) (trees_new C) outs.
  Proof.
    intros Hc Hb Hd; pose proof (each_behind_prune trees g Hc Hb) as Hr; cbv zeta in Hr |- *.
    pose proof (walk_list_safe (each_positions (map nt trees)) (start, g, dclos_init [0%N] c2, false) (each_annotated trees)) as Hw.
    unfold walk_all in Hr; destruct (walk_list (walk vis) (start, g, dclos_init [0%N] c2, false) (each_positions (map nt trees))) as [[[[[gs1 p] g'] gs2] freed] outs].
    destruct Hw as [-> _].
    - rewrite each_positions_map; apply Forall_forall; intros x Hx; apply in_flat_map in Hx as (t & Ht & Hx); destruct (in_mapi _ _ _ _ Ht) as (i & n & -> & Hn).
      rewrite Forall_forall in Hd; specialize (Hd n (proj1 Hn)).
      assert (Hf : fits (grow 0) 1 (nt n)) by (apply fits_root; [apply Hgrow|exact Hd]).
      pose proof (fits_deep _ _ [i] [] Hf) as Hfd; rewrite Forall_forall in Hfd; exact (Hfd x Hx).
    - split; [reflexivity|apply each_first].
    - exists outs; intros k; destruct (Hr k) as (s & ah & Hk & _); eauto.
  Qed.

  Lemma each_behind_deep trees g outs s : small_collection trees -> (N.of_nat (length (flat_map (fun n => preorder (nt n)) trees)) <= usize_max)%N ->
    let C := each_chain (map_path_each_after grow gvc trees c1 f g) c2 in
    calls (trees_next C) (S (length outs)) (trees_new C) ⇓ Ok (map Some outs ++ [None], s) ->
    Forall (fun t => Forall (fun p => length p < grow 0) (node_paths t)) outs.
  Proof.
    intros Hc Hb C Ht; pose proof (each_behind_prune trees g Hc Hb) as Hr; cbv zeta in Hr; fold C in Hr.
    pose proof (walk_list_holds (each_positions (map nt trees)) (start, g, dclos_init [0%N] c2, false) (each_annotated trees)) as Hw.
    unfold walk_all in Hr; destruct (walk_list (walk vis) (start, g, dclos_init [0%N] c2, false) (each_positions (map nt trees))) as [[[[[gs1 p] g'] gs2] freed] os].
    destruct Hw as [_ Hw]; [right; right; apply each_first|]; cbn [fails snd] in Hw.
    destruct freed.
    - exfalso; destruct Hr as (k & s1 & _ & Hk & Hub); destruct (Nat.le_gt_cases (S k) (S (length outs))) as [Hle|Hgt].
      + replace (S (length outs)) with (S k + (length outs - k)) in Ht by lia; destruct Ht as [F1 H1], Hub as [F2 H2].
        specialize (H1 (Nat.max F1 F2) ltac:(lia)); rewrite calls_plus, (H2 (Nat.max F1 F2)) in H1 by lia; discriminate.
      + replace k with (S (length outs) + (k - S (length outs))) in Hk by lia; destruct Ht as [F1 H1], Hk as [F2 H2].
        specialize (H2 (Nat.max F1 F2) ltac:(lia)); rewrite calls_plus, (H1 (Nat.max F1 F2)) in H2 by lia; cbn [bindR] in H2.
        destruct (calls (trees_next C) (k - S (length outs)) s (Nat.max F1 F2)) as [[r2 s2]| | |]; cbn [bindR] in H2; try discriminate; injection H2 as E _.
        assert (Hin : In None ((map Some outs ++ [None]) ++ r2)) by (apply in_or_app; left; apply in_or_app; right; left; reflexivity).
        rewrite E in Hin; apply in_map_iff in Hin as (? & ? & _); discriminate.
    - destruct (Hr (S (length outs))) as (s1 & ah & Hk & _); pose proof (f_equal (fun r => match r with Ok (l, _) => l | _ => [] end) (conv_fun _ _ _ Ht Hk)) as E; cbv beta iota in E.
      rewrite seq_S, map_app in E; cbn [map Nat.add] in E; apply app_inj_tail in E as [E En].
      assert (El : length os <= length outs) by (apply nth_error_None; symmetry; exact En).
      assert (Eo : os = outs).
      { assert (Hge : length outs <= length os).
        { destruct (Nat.le_gt_cases (length outs) (length os)) as [Hle|Hlt]; [exact Hle|exfalso].
          assert (Hin : In None (map (nth_error os) (seq 0 (length outs)))).
          { apply in_map_iff; exists (length os); split; [apply nth_error_None; lia|apply in_seq; lia]. }
          rewrite <- E in Hin; apply in_map_iff in Hin as (? & ? & _); discriminate. }
        rewrite seq_firstn_some, firstn_all2 in E by lia.
        assert (Hinj : forall a b : list (tree D), map Some a = map Some b -> a = b) by (induction a as [|x a IHa]; intros [|y b] Eab; try discriminate; [reflexivity|]; injection Eab as -> Eab; f_equal; auto).
        symmetry; apply Hinj; exact E. }
      subst os; destruct Hw as [Hw|Hw]; [discriminate|]; eapply Forall_impl; [|exact Hw]; intros t Hf; apply fits_root; [apply Hgrow|exact Hf].
  Qed.
End Each.
