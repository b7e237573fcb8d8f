(** * Property C61: what [trees()] over a collection gives when user code in the pipeline panics and the caller goes on. *)
From Verif Require Import Prelim PrelimFacts Spec SpecFacts ModelUnwind SpecUnwind SpecPipe SpecPipeColl SpecUnwindPipe SpecUnwindTrees SpecObs ModelNode NodeFacts
  ModelPre ModelPipe ModelPipeColl ModelUnwindPipe ModelUnwindPipeColl ModelUnwindTrees ProofsUnwind PipeCore PipeChain PipeEnd ProofsPipe ProofsPipeColl PipeCollFinal
  ProofsUnwindPipe ProofsUnwindPipeColl ProofsUnwindTrees PropUnwindPipe PropUnwindPipeColl.
Local Notation outcome := SpecPipe.outcome.

(** What the pipeline gives to the consumer. *)
Lemma chain_reads : forall Nd V (gvc : Nd -> option (V * list Nd)) nt, fnode_tree gvc nt ->
  forall A (c : uchain V A) trees, utrue_paths c = true -> small_collection trees ->
  (uhas_prune c = true -> (N.of_nat (length (flat_map (fun n => preorder (nt n)) trees)) <= usize_max)%N) ->
  let os := snd (walk_all (with_node (uat_node_each (seen gvc) c)) (uclos_init c) (each_positions (map nt trees))) in
  let P := ueach_chain (uinto_pipeline_each gvc trees) c in
  forall k, exists s', calls (p_next P) k (p_init P) ⇓ Ok (map (nth_error (map fst (flat_map preorder os))) (seq 0 k), s') /\
    (forall i a x, k = S i -> nth_error (flat_map preorder os) i = Some (Got a, x) -> pok_root (p_path P s') x).
Proof.
  intros Nd V gvc nt H A c trees Ht Hc Hb os P.
  pose proof (C60_each_chain Nd V gvc nt H A c trees Ht Hc Hb) as Hd.
  pose proof (walk_all_in (uat_node_each (seen gvc) c) (each_positions (map nt trees)) (uclos_init c)) as Hin.
  subst os; destruct (walk_all _ _ _) as [gs os]; cbn [snd] in *.
  intros k; destruct (Hd k) as (s' & Hk & Hp & _); exists s'; split; [exact Hk|].
  intros i a x Ei Ex; specialize (Hp i (Got a, x) Ei Ex); split; [exact Hp|].
  apply nth_error_In, Hin in Ex; rewrite each_positions_map in Ex.
  pose proof (each_rooted nt trees) as Hr; rewrite Forall_forall in Hr; apply Hr; exact Ex.
Qed.

(** Every result of every call: [handed] says which nodes go into which tree, [made_of] what tree they make.  Every tree without a
    panic comes out whole, unless the next tree's root panics; what has been read of a tree that panics is lost, and what comes after the panic
    comes out as a tree of its own.  The calls end with [None] for ever. *)
Theorem C61_trees : forall Nd V (gvc : Nd -> option (V * list Nd)) nt, fnode_tree gvc nt ->
  forall A (c : uchain V A) trees, utrue_paths c = true -> small_collection trees ->
  (uhas_prune c = true -> (N.of_nat (length (flat_map (fun n => preorder (nt n)) trees)) <= usize_max)%N) ->
  let os := snd (walk_all (with_node (uat_node_each (seen gvc) c)) (uclos_init c) (each_positions (map nt trees))) in
  let P := ueach_chain (uinto_pipeline_each gvc trees) c in
  exists outs, yields (utrees_next P) (utrees_new P) outs /\
    Forall2 made_of outs (handed [] (flat_map preorder os)) /\
    sublist (map Got (spared calm root_of os)) outs.
Proof.
  intros Nd V gvc nt H A c trees Ht Hc Hb os P.
  assert (Hw : Forall (whole preorder calm root_of tree_is) os).
  { subst os; rewrite each_positions_map; unfold walk_all; eapply Forall_impl; [|apply (each_below nt (uat_node_each (seen gvc) c) trees)].
    intros t (i & Hi); apply whole_nary, (below_cdepth t [i] Hi); discriminate. }
  destruct (utrees_yield P _ (chain_reads Nd V gvc nt H A c trees Ht Hc Hb)) as (outs & Hy & HF); fold os in HF.
  exists outs; split; [exact Hy|split; [exact HF|]].
  rewrite <- (map_id (spared calm root_of os)).
  eapply spared_whole; [exact Hw|apply made_whole|exact HF].
Qed.
Print Assumptions C61_trees.

Lemma bbelow_last {A Nd} (t : btree (A * pos Nd)) : forall p y, bbelow p t -> In y (preorder (flat t)) -> pos_path (snd y) = p \/ last (pos_path (snd y)) 0 <= 1.
Proof.
  induction t as [[r x] l rr IHl IHr] using btree_ind'; intros p y (Hx & Hl & Hr) [<-|Hy]; [auto|].
  rewrite flat_map_app in Hy; apply in_app_or in Hy; right.
  destruct Hy as [Hy|Hy]; [destruct l as [t|]|destruct rr as [t|]]; cbn in Hy; try tauto; rewrite app_nil_r in Hy; cbn in IHl, IHr.
  - destruct (IHl _ _ Hl Hy) as [->|Hlast]; [rewrite last_last; lia|exact Hlast].
  - destruct (IHr _ _ Hr Hy) as [->|Hlast]; [rewrite last_last; lia|exact Hlast].
Qed.

Lemma bchain_reads : forall Nd V (gvcb : Nd -> option (V * (option Nd * option Nd))) bt, fnode_btree gvcb bt ->
  forall A (c : uchain V A) trees, small_collection trees ->
  let os := snd (bwalk_all (with_node (uat_node_each (seen gvcb) c)) (uclos_init c) (each_bpositions (map bt trees))) in
  let P := ueach_chain_binary (uinto_pipeline_each_binary gvcb trees) c in
  forall k, exists s', calls (p_next P) k (p_init P) ⇓ Ok (map (nth_error (map fst (flat_map preorder (map flat os)))) (seq 0 k), s') /\
    (forall i a x, k = S i -> nth_error (flat_map preorder (map flat os)) i = Some (Got a, x) -> pok_side (p_path P s') x).
Proof.
  intros Nd V gvcb bt H A c trees Hc os P.
  pose proof (C60_each_chain_binary Nd V gvcb bt H A c trees Hc) as Hd.
  pose proof (walk_all_in (uat_node_each (seen gvcb) c) (map flat (each_bpositions (map bt trees))) (uclos_init c)) as Hin.
  rewrite walk_all_flat in Hin.
  assert (Hbel : Forall (fun t => exists i, bbelow [i] t) os) by apply beach_below.
  subst os; destruct (bwalk_all _ _ _) as [gs os]; cbn [snd fst] in *.
  intros k; destruct (Hd k) as (s' & Hk & Hp & _); exists s'; split; [exact Hk|].
    intros i a x Ei Ex; specialize (Hp i (Got a, x) Ei Ex); apply nth_error_In in Ex; split; [exact Hp|split].
    - apply Hin in Ex; rewrite each_bpositions_map in Ex; cbn in Ex.
      pose proof (beach_rooted bt trees) as Hr; rewrite Forall_forall in Hr; apply Hr; exact Ex.
    - apply in_flat_map in Ex as (ft & Hft & Ex); apply in_map_iff in Hft as (t & <- & Ht).
      rewrite Forall_forall in Hbel; destruct (Hbel t Ht) as (j & Hj).
      destruct (bbelow_last t [j] _ Hj Ex) as [Ep|Hl]; [|intros _; exact Hl].
      cbn in Ep; unfold depth_each; rewrite Ep; cbn; congruence.
Qed.

Theorem C61_trees_binary : forall Nd V (gvcb : Nd -> option (V * (option Nd * option Nd))) bt, fnode_btree gvcb bt ->
  forall A (c : uchain V A) trees, small_collection trees ->
  let os := snd (bwalk_all (with_node (uat_node_each (seen gvcb) c)) (uclos_init c) (each_bpositions (map bt trees))) in
  let P := ueach_chain_binary (uinto_pipeline_each_binary gvcb trees) c in
  exists outs, yields (ubtrees_next P) (utrees_new P) outs /\
    Forall2 bmade_of outs (handed [] (flat_map preorder (map flat os))) /\
    sublist (map Got (spared bcalm broot_of os)) outs.
Proof.
  intros Nd V gvcb bt H A c trees Hc os P.
  assert (Hbel : Forall (fun t => exists i, bbelow [i] t) os) by apply beach_below.
  destruct (ubtrees_yield P _ (bchain_reads Nd V gvcb bt H A c trees Hc)) as (outs & Hy & HF); fold os in HF.
  exists outs; split; [exact Hy|split; [exact HF|]].
  rewrite <- (map_id (spared bcalm broot_of os)).
  apply (spared_whole (fun t => preorder (flat t)) bcalm broot_of btree_is bmade_of (fun u => u)).
  - eapply Forall_impl; [|exact Hbel]; apply whole_binary.
  - apply bmade_whole.
  - rewrite flat_map_concat_map, map_map, <- flat_map_concat_map in HF; exact HF.
Qed.
Print Assumptions C61_trees_binary.

(** Without a panic, all trees come out. *)
Theorem C61_calm : forall Nd V (gvc : Nd -> option (V * list Nd)) nt, fnode_tree gvc nt ->
  forall A (c : uchain V A) trees, utrue_paths c = true -> small_collection trees ->
  (uhas_prune c = true -> (N.of_nat (length (flat_map (fun n => preorder (nt n)) trees)) <= usize_max)%N) ->
  let os := snd (walk_all (with_node (uat_node_each (seen gvc) c)) (uclos_init c) (each_positions (map nt trees))) in
  let P := ueach_chain (uinto_pipeline_each gvc trees) c in
  forall us, map calm os = map Some us -> yields (utrees_next P) (utrees_new P) (map Got us).
Proof.
  intros Nd V gvc nt H A c trees Ht Hc Hb os P us Eu.
  destruct (C61_trees Nd V gvc nt H A c trees Ht Hc Hb) as (outs & Hy & HF & _).
  assert (Hw : Forall (whole preorder calm root_of tree_is) os).
  { subst os; rewrite each_positions_map; unfold walk_all; eapply Forall_impl; [|apply (each_below nt (uat_node_each (seen gvc) c) trees)].
    intros t (i & Hi); apply whole_nary, (below_cdepth t [i] Hi); discriminate. }
  fold os in HF; destruct (calm_handed _ _ _ _ os Hw us Eu) as (gs & Eg & HQ); rewrite Eg in HF.
  replace (map Got us) with outs; [exact Hy|].
  clear - HF HQ; revert outs HF; induction HQ as [|u g us gs Hq HQ IH]; intros outs HF; inversion HF; subst; [reflexivity|].
  cbn; f_equal; [eapply made_whole; eassumption|apply IH; assumption].
Qed.
Print Assumptions C61_calm.

Lemma walk_keep {G X B} (vis : G -> X -> G * outcome B) h : (forall g x, vis g x = (g, Keep (h x) true)) ->
  forall t g, walk vis g t = (g, Some (tree_map h t)).
Proof.
  intros Hv; induction t as [x ts IH] using tree_ind'; intros g; rewrite walk_node, Hv.
  assert (E : forall g, walk_list (walk vis) g ts = (g, map (tree_map h) ts)).
  { induction IH as [|t ts Ht _ IH]; intros g'; [reflexivity|]; rewrite walk_list_cons, Ht, IH; reflexivity. }
  rewrite E; reflexivity.
Qed.

(** A tree in which nothing panics is lost when the root of the tree after it does. *)
Theorem C61_lost_refuted : forall Nd V (gvc : Nd -> option (V * list Nd)) nt, fnode_tree gvc nt ->
  forall n1 n2, (forall n, In n (preorder (nt n1)) -> gvc n <> None) -> gvc n2 = None ->
  let P := ueach_chain (uinto_pipeline_each gvc [n1; n2]) u_start in
  yields (utrees_next P) (utrees_new P) [Unwound].
Proof.
  intros Nd V gvc nt H n1 n2 H1 H2 P.
  destruct (C61_trees Nd V gvc nt H V u_start [n1; n2] eq_refl) as (outs & Hy & HF & _); [vm_compute; discriminate|discriminate|].
  assert (E : handed [] (flat_map preorder (snd (walk_all (with_node (uat_node_each (seen gvc) u_start)) (uclos_init u_start) (each_positions (map nt [n1; n2]))))) =
    [@Unwound (list (V * pos Nd))]).
  { assert (Hv : forall g x, with_node (uat_node_each (seen gvc) (@u_start V)) g x = (g, Keep (seen gvc (pos_here x), x) true)) by reflexivity.
    unfold walk_all, each_positions, mapi; cbn [map]; rewrite walk_list_cons, (walk_keep _ _ Hv); cbv beta iota; rewrite walk_list_cons, (walk_keep _ _ Hv); cbv beta iota; rewrite walk_list_nil; cbn [snd flat_map opt_list app].
    rewrite (H n2), H2; cbn [map annotate mapi tree_map preorder flat_map app seen pos_here].
    unfold seen at 2; cbn [pos_here]; rewrite H2; cbn [preorder flat_map app].
    set (l := preorder (tree_map (fun x => (seen gvc (pos_here x), x)) (annotate [0] [] (nt n1)))).
    assert (Hl : exists g, l = map as_got g /\ g <> [] /\ match g with [] => True | _ :: g' => Forall (fun ax => depth_each (snd ax) <> 0) g' end).
    { assert (Hd : depth_ok depth_each 0 (tree_map (fun x => (seen gvc (pos_here x), x)) (annotate [0] [] (nt n1)))).
      { pose proof (walk_below (uat_node_each (seen gvc) (@u_start V)) (nt n1) [0] [] tt) as Hb.
        rewrite (walk_keep _ _ Hv) in Hb; apply (below_cdepth _ [0] (Hb _ eq_refl)); discriminate. }
      assert (Hcalm : exists u, calm (tree_map (fun x => (seen gvc (pos_here x), x)) (annotate [0] [] (nt n1))) = Some u).
      { assert (Hp : forall x, In x (preorder (annotate [0] [] (nt n1))) -> gvc (pos_here x) <> None).
        { intros x Hx; apply H1; rewrite <- (annotate_here (nt n1) [0] []), preorder_map; apply in_map; exact Hx. }
        clear -Hp; induction (annotate [0] [] (nt n1)) as [x ts IH] using tree_ind'; cbn [tree_map calm].
        unfold seen at 1; destruct (gvc (pos_here x)) as [[v cs]|] eqn:Ev; [|exfalso; apply (Hp x); [left; reflexivity|exact Ev]].
        assert (Hts : forall y, In y (flat_map preorder ts) -> gvc (pos_here y) <> None) by (intros y Hy; apply Hp; right; exact Hy).
        clear Hp Ev; assert (E : exists us, all_some (map calm (map (tree_map (fun x => (seen gvc (pos_here x), x))) ts)) = Some us).
        { induction IH as [|t ts Ht _ IH]; [exists []; reflexivity|]; cbn [map].
          destruct Ht as (u & Eu); [intros y Hy; apply Hts; cbn; apply in_or_app; auto|].
          destruct IH as (us & Es); [intros y Hy; apply Hts; cbn; apply in_or_app; auto|].
          exists (u :: us); unfold all_some; cbn [fold_right]; fold (all_some (map calm (map (tree_map (fun x => (seen gvc (pos_here x), x))) ts))).
          rewrite Eu, Es; reflexivity. }
        destruct E as (us & ->); exists (TNode v us); reflexivity. }
      destruct Hcalm as (u & Hu); destruct (whole_nary _ Hd) as [_ Hw]; destruct (Hw u Hu) as (a & x & g & Eg & Hg & _).
      exists ((a, x) :: g); split; [exact Eg|split; [discriminate|exact Hg]]. }
    destruct Hl as ([|[a x] g] & -> & Hn & Hg); [congruence|].
    cbn [map app]; unfold as_got at 1; cbn [fst snd handed app]; rewrite handed_inside; [reflexivity|discriminate|exact Hg]. }
  rewrite E in HF; inversion HF as [|o ? ? ? Ho HF']; subst; inversion HF'; subst.
  destruct o; [destruct Ho|exact Hy].
Qed.
Print Assumptions C61_lost_refuted.

(** With a closure that does not panic itself, and whose results do not depend on its state, [fold_trees] gives the folds of the trees
    that [trees()] gives, and a panic where it gives a panic. *)
Theorem C61_fold : forall Nd V (gvc : Nd -> option (V * list Nd)) nt, fnode_tree gvc nt ->
  forall A (c : uchain V A) trees, utrue_paths c = true -> small_collection trees ->
  (uhas_prune c = true -> (N.of_nat (length (flat_map (fun n => preorder (nt n)) trees)) <= usize_max)%N) ->
  forall G O (f : G -> list O -> A -> G * option O) h, (forall g os v, snd (f g os v) = Some (h os v)) ->
  let P := ueach_chain (uinto_pipeline_each gvc trees) c in
  forall g outs, yields (utrees_next P) (utrees_new P) outs -> yields (ucfold_next P f) (uconsume_new P g) (map (outcome_map (fold_value h)) outs).
Proof.
  intros Nd V gvc nt H A c trees Ht Hc Hb G O f h Hf P g outs Ho.
  pose proof (chain_reads Nd V gvc nt H A c trees Ht Hc Hb) as HL.
  destruct (utrees_yield P _ HL) as (outs1 & Hy1 & H1); destruct (ucfold_yield f h Hf P _ g HL) as (outs2 & Hy2 & H2).
  rewrite (yields_unique _ _ _ _ _ _ Ho Hy1), <- (fold_fits_map h _ _ _ H1 H2); exact Hy2.
Qed.
Print Assumptions C61_fold.

Theorem C61_fold_binary : forall Nd V (gvcb : Nd -> option (V * (option Nd * option Nd))) bt, fnode_btree gvcb bt ->
  forall A (c : uchain V A) trees, small_collection trees ->
  forall G O (f : G -> option O * option O -> A -> G * option O) h, (forall g os v, snd (f g os v) = Some (h os v)) ->
  let P := ueach_chain_binary (uinto_pipeline_each_binary gvcb trees) c in
  forall g outs, yields (ubtrees_next P) (utrees_new P) outs -> yields (ubcfold_next P f) (uconsume_new P g) (map (outcome_map (bfold_value h)) outs).
Proof.
  intros Nd V gvcb bt H A c trees Hc G O f h Hf P g outs Ho.
  pose proof (bchain_reads Nd V gvcb bt H A c trees Hc) as HL.
  destruct (ubtrees_yield P _ HL) as (outs1 & Hy1 & H1); destruct (ubcfold_yield f h Hf P _ g HL) as (outs2 & Hy2 & H2).
  rewrite (yields_unique _ _ _ _ _ _ Ho Hy1), <- (bfold_fits_map h _ _ _ H1 H2); exact Hy2.
Qed.
Print Assumptions C61_fold_binary.

(** A closure of [fold_trees] that panics loses the root of the next tree too: here that whole tree, in which nothing panics. *)
Theorem C61_fold_refuted : forall Nd V (gvc : Nd -> option (V * list Nd)) nt, fnode_tree gvc nt ->
  forall n1 n2 a b, gvc n1 = Some (a, []) -> gvc n2 = Some (b, []) ->
  forall G O (f : G -> list O -> V -> G * option O) g g', f g [] a = (g', None) ->
  let P := ueach_chain (uinto_pipeline_each gvc [n1; n2]) u_start in
  yields (ucfold_next P f) (uconsume_new P g) [Unwound].
Proof.
  intros Nd V gvc nt H n1 n2 a b E1 E2 G O f g g' Ef P.
  pose proof (C60_each_chain Nd V gvc nt H V u_start [n1; n2] eq_refl) as Hd.
  specialize (Hd ltac:(vm_compute; discriminate) ltac:(discriminate)).
  set (x1 := mkPos [0] [] n1) in *; set (x2 := mkPos [1] [] n2) in *.
  assert (Ew : walk_all (with_node (uat_node_each (seen gvc) (@u_start V))) (uclos_init (@u_start V)) (each_positions (map nt [n1; n2])) =
    (tt, [TNode (Got a, x1) []; TNode (Got b, x2) []])).
  { assert (Hv : forall g x, with_node (uat_node_each (seen gvc) (@u_start V)) g x = (g, Keep (seen gvc (pos_here x), x) true)) by reflexivity.
    unfold walk_all, each_positions, mapi; cbn [map]; rewrite walk_list_cons, (walk_keep _ _ Hv); cbv beta iota; rewrite walk_list_cons, (walk_keep _ _ Hv); cbv beta iota.
    rewrite walk_list_nil, (H n1), (H n2), E1, E2; cbn [map annotate mapi tree_map opt_list app seen pos_here].
    unfold seen; cbn [pos_here]; rewrite E1, E2; reflexivity. }
  rewrite Ew in Hd; cbn [flat_map preorder app] in Hd.
  set (L := [(@Got V a, x1); (Got b, x2)]) in *.
  assert (HL : forall k, exists s', calls (p_next P) k (p_init P) ⇓ Ok (map (nth_error (map fst L)) (seq 0 k), s') /\
    (forall i a x, k = S i -> nth_error L i = Some (Got a, x) -> length (p_path P s') = length (pos_path x))).
  { intros k; destruct (Hd k) as (s' & Hk & Hp & _); exists s'; split; [exact Hk|]; intros i a0 x Ei Ex; exact (Hp i (Got a0, x) Ei Ex). }
  clear Hd Ew; clearbody P; pose proof (at_step P L (fun p x => length p = length (pos_path x)) HL) as Hs.
  destruct (Hs 0 (p_init P) (calls_0 _ _)) as (i1 & N1 & At1 & P1); specialize (P1 a x1 eq_refl); cbn in N1, P1.
  destruct (Hs 1 i1 At1) as (i2 & N2 & At2 & P2); specialize (P2 b x2 eq_refl); cbn in N2, P2.
  eapply yields_cons with (s' := (i2, None, g')).
  - unfold ucfold_next, uconsume_next, uconsume_new.
    eapply loop_step with (s' := (i1, None, (g, [a], [[]]))).
    + unfold uconsume_body; eapply conv_bind; [exact N1|]; cbv beta iota.
      eapply conv_bind with (a := inl (g, [], [])); [|apply conv_ret].
      apply loop_done, conv_eq; intros fu; unfold uclose_body, deeper; cbn [fst snd length].
      destruct (p_path P i1) as [|p [|? ?]]; try discriminate; reflexivity.
    + apply loop_done; unfold uconsume_body; eapply conv_bind; [exact N2|]; cbv beta iota.
      eapply conv_bind with (a := inr (Unwound, g')); [|apply conv_ret].
      apply loop_done, conv_eq; intros fu; unfold uclose_body, deeper; cbn [fst snd length].
      destruct (p_path P i2) as [|p [|? ?]]; try discriminate; cbn; rewrite Ef; reflexivity.
  - apply (step_inv_yields _ (fun s l => l = [] /\ exists k i, s = (i, None, g') /\
      calls (p_next P) (S (S k)) (p_init P) ⇓ Ok (map (nth_error (map fst L)) (seq 0 (S (S k))), i))).
    + intros s l [-> (k & i & -> & Hk)]; destruct (Hs _ i Hk) as (i' & Hn & Hk' & _).
      exists (i', None, g'); split; [|split; [reflexivity|exists (S k), i'; auto]].
      replace (nth_error L (S (S k))) with (@None (result V * pos Nd)) in Hn by (destruct k; reflexivity).
      unfold ucfold_next, uconsume_next; apply loop_done; unfold uconsume_body; eapply conv_bind; [exact Hn|]; cbn [option_map].
      eapply conv_bind with (a := (None, g')); [|apply conv_ret]; apply loop_done, conv_eq; reflexivity.
    + split; [reflexivity|]; exists 0, i2; auto.
Qed.
Print Assumptions C61_fold_refuted.

(** The method panics on nodes with the value 9. *)
Definition odd_gvc (t : tree nat) : option (nat * list (tree nat)) :=
  match t with TNode v ts => if v =? 9 then None else Some (v, ts) end.
Definition odd_trees : list (tree nat) :=
  [TNode 1 [TNode 2 []]; TNode 3 [TNode 4 [TNode 9 [TNode 0 []]; TNode 5 []]; TNode 6 [TNode 7 []]]; TNode 8 [TNode 10 []]; TNode 9 []; TNode 11 []].
Fixpoint odd_nt (t : tree nat) : tree (tree nat) :=
  match t with TNode v ts => TNode t (if v =? 9 then [] else map odd_nt ts) end.
Example C61_met : fnode_tree odd_gvc odd_nt /\ small_collection odd_trees.
Proof. split; [|vm_compute; discriminate]; intros [v ts]; cbn; destruct (v =? 9); reflexivity. Qed.
(** The second tree is lost up to the 9; 5, 6 and 7 make a tree they never were in; the third tree is lost with the root of the fourth. *)
Example C61_ex : exists s, let P := ueach_chain (uinto_pipeline_each odd_gvc odd_trees) u_start in
  calls (utrees_next P) 7 (utrees_new P) 60 =
    Ok ([Some (Got (TNode 1 [TNode 2 []])); Some Unwound; Some (Got (TNode 5 [TNode 6 [TNode 7 []]])); Some Unwound; Some (Got (TNode 11 [])); None; None], s).
Proof. eexists; vm_compute; reflexivity. Qed.
Example C61_spared_ex :
  spared calm root_of (snd (walk_all (with_node (uat_node_each (seen odd_gvc) (@u_start nat))) (uclos_init (@u_start nat)) (each_positions (map odd_nt odd_trees)))) =
    [TNode 1 [TNode 2 []]; TNode 11 []].
Proof. vm_compute; reflexivity. Qed.

Definition odd_gvcb (t : btree nat) : option (nat * (option (btree nat) * option (btree nat))) :=
  match t with BNode v l r => if v =? 9 then None else Some (v, (l, r)) end.
Definition odd_btrees : list (btree nat) :=
  [BNode 1 None (Some (BNode 2 None None));
   BNode 3 (Some (BNode 4 (Some (BNode 9 None None)) (Some (BNode 5 None None)))) (Some (BNode 6 None (Some (BNode 7 None None))));
   BNode 8 None None].
Fixpoint odd_bt (t : btree nat) : btree (btree nat) :=
  match t with BNode v l r => if v =? 9 then BNode t None None else BNode t (option_map odd_bt l) (option_map odd_bt r) end.
Example C61_binary_met : fnode_btree odd_gvcb odd_bt /\ small_collection odd_btrees.
Proof. split; [|vm_compute; discriminate]; intros [v l r]; cbn; destruct (v =? 9); reflexivity. Qed.
Example C61_binary_ex : exists s, let P := ueach_chain_binary (uinto_pipeline_each_binary odd_gvcb odd_btrees) u_start in
  calls (ubtrees_next P) 5 (utrees_new P) 60 =
    Ok ([Some (Got (BNode 1 None (Some (BNode 2 None None)))); Some Unwound; Some (Got (BNode 5 None (Some (BNode 6 None (Some (BNode 7 None None))))));
         Some (Got (BNode 8 None None)); None], s).
Proof. eexists; vm_compute; reflexivity. Qed.

(** The closure panics on the root of the first tree; the second tree (8 above 10) comes out without its root. *)
Definition odd_fold (g : nat) (kids : list nat) (v : nat) : nat * option nat := (S g, if v =? 1 then None else Some (v + fold_right plus 0 kids)).
Example C61_fold_ex : exists s, let P := ueach_chain (uinto_pipeline_each odd_gvc [TNode 1 [TNode 2 []]; TNode 8 [TNode 10 []]; TNode 3 []]) u_start in
  calls (ucfold_next P odd_fold) 4 (uconsume_new P 0) 60 = Ok ([Some Unwound; Some (Got 10); Some (Got 3); None], s).
Proof. eexists; vm_compute; reflexivity. Qed.

Example C61_fold_calm_ex : exists s, let P := ueach_chain (uinto_pipeline_each odd_gvc odd_trees) u_start in
  calls (ucfold_next P (fun g kids v => (S g, Some (v + fold_right plus 0 kids)))) 6 (uconsume_new P 0) 60 =
    Ok ([Some (Got 3); Some Unwound; Some (Got 18); Some Unwound; Some (Got 11); None], s).
Proof. eexists; vm_compute; reflexivity. Qed.
Definition bsum (kids : option nat * option nat) (v : nat) : nat :=
  v + match fst kids with Some a => 10 * a | None => 0 end + match snd kids with Some a => a | None => 0 end.
Example C61_fold_binary_ex : exists s, let P := ueach_chain_binary (uinto_pipeline_each_binary odd_gvcb odd_btrees) u_start in
  calls (ubcfold_next P (fun g kids v => (S g, Some (bsum kids v)))) 5 (uconsume_new P 0) 60 =
    Ok ([Some (Got 3); Some Unwound; Some (Got 18); Some (Got 8); None], s).
Proof. eexists; vm_compute; reflexivity. Qed.
