(** * ProofsMapPathPruneFinal: map_path behind an n-ary prune, from the first node to the result. *)
From Verif Require Import Prelim PrelimFacts Spec SpecFacts SpecPipe SpecDrift SpecMapPathPrune SpecObs ModelNode NodeFacts ModelPre ModelPipe ModelMapPath
  ModelMapPathPrune ProofsPlain Slots PipeCore PipeBase PipeChain PipeEnd ProofsPipe PipeFinal PipeExact ProofsExact ProofsMapPath ProofsMapPathEnd ProofsMapPathChain
  ProofsMapPathPrune ProofsMapPathPruneSim ProofsMapPathPruneUb ProofsMapPathPruneEnd.

Notation repd := (fun axq => (fst axq, snd (snd axq))).

(** Below the root no reported path is empty. *)
Lemma ext_long {A X} (t : tree (A * (X * list N))) : forall p, ext_paths p (tree_map repd t) -> forall ax, In ax (preorder t) -> length p <= length (snd (snd ax)).
Proof.
  induction t as [[a [x q]] ts IH] using tree_ind'; intros p Hx ax Hin; cbn [tree_map fst snd] in Hx; apply ext_paths_node in Hx as [-> Hk].
  cbn [preorder] in Hin; destruct Hin as [<-|Hin]; [cbn; lia|]; apply in_flat_map in Hin as (t & Ht & Hin).
  rewrite Forall_forall in IH, Hk; destruct (Hk (tree_map repd t)) as (i & Hi); [apply in_map; exact Ht|].
  specialize (IH t Ht _ Hi ax Hin); rewrite app_length in IH; lia.
Qed.
Lemma ext_deep {A X} (r : A * (X * list N)) ts : ext_paths [] (tree_map repd (TNode r ts)) -> forall ax, In ax (flat_map preorder ts) -> 0 < length (snd (snd ax)).
Proof.
  destruct r as [a [x q]]; cbn [tree_map fst snd]; intros Hx ax Hin; apply ext_paths_node in Hx as [_ Hk]; apply in_flat_map in Hin as (t & Ht & Hin).
  rewrite Forall_forall in Hk; destruct (Hk (tree_map repd t)) as (i & Hi); [apply in_map; exact Ht|].
  pose proof (ext_long t _ Hi ax Hin) as Hl; cbn in Hl; lia.
Qed.

Lemma reported_no {V' A'} (c : chain V' A') : has_prune c = false -> forall gs p, reported c gs p = p.
Proof. induction c; cbn; intros Hq gs p; try discriminate; auto. Qed.

Section Cursor.
  Variable grow : nat -> nat.
  Context {X V A B D G : Type} (val : X -> V) (path : X -> list N) (depth : X -> N) (c1 : chain V A) (f : G -> list N -> A -> G * B) (c2 : chain B D).
  Hypothesis Hp : has_prune c1 = true.
  Notation hv := (hvis grow val path depth c1 f).
  Notation pth := (fun st : dclos c1 * pointer * G * bool => reported c1 (fst (fst (fst st))) []).
  Notation uv := (uvis hv pth depth c2).
  Notation ucur := (fun g : (dclos c1 * pointer * G * bool) * dclos c2 => reported c2 (snd g) (pth (fst g))).

  Lemma hvis_cursor st (x : X) : let '(st', o) := hv st x in
    match o with
    | Drop => pth st' = pth st \/ pth st' = drift (length (path x)) (pth st)
    | Keep _ _ => pth st' = drift (length (path x)) (pth st)
    end.
  Proof.
    destruct st as [[[gs p] g] fr]; unfold hvis, mvis, dvis; cbn [fst snd].
    pose proof (dvisit_cursor c1 Hp gs (path x) (depth x) (val x) []) as Hc; cbv beta in Hc.
    destruct (dvisit c1 gs (path x) (depth x) (val x)) as [gs' [|a dn]]; [exact Hc|].
    destruct (f g _ a) as [g' b]; exact Hc.
  Qed.

  Lemma hvis_len st (x : X) st' b dn : hv st x = (st', Keep b dn) -> length (pth st') = length (path x).
  Proof. intros E; pose proof (hvis_cursor st x) as Hc; rewrite E in Hc; cbv beta in Hc |- *; rewrite Hc; apply drift_length. Qed.

  Lemma uvis_cursor g (x : X) : let '(g', o) := uv g x in
    match o with
    | Drop => ucur g' = ucur g \/ ucur g' = drift (length (path x)) (ucur g)
    | Keep _ _ => ucur g' = drift (length (path x)) (ucur g)
    end.
  Proof.
    destruct g as [st gs2]; unfold uvis; cbn [fst snd]; pose proof (hvis_cursor st x) as Hc.
    destruct (hv st x) as [st' [|b dn]] eqn:Ev; cbn [fst snd].
    - destruct (has_prune c2) eqn:E2; [left; apply reported_const; exact E2|].
      rewrite !(reported_no c2 E2); exact Hc.
    - pose proof (hvis_len _ _ _ _ _ Ev) as Hl; cbv beta in Hl, Hc.
      destruct (has_prune c2) eqn:E2.
      + pose proof (dvisit_cursor c2 E2 gs2 (pth st') (depth x) b []) as Hd; cbv beta in Hd; rewrite Hl in Hd.
        destruct (dvisit c2 gs2 (reported c1 (fst (fst (fst st'))) []) (depth x) b) as [gs2' [|d dn']]; cbn [fst snd].
        * rewrite !(reported_const c2 E2 _ (reported c1 _ []) []); exact Hd.
        * rewrite !(reported_const c2 E2 _ (reported c1 _ []) []); exact Hd.
      + destruct (dvisit c2 gs2 (reported c1 (fst (fst (fst st'))) []) (depth x) b) as [gs2' [|d dn']]; cbn [fst snd];
          rewrite !(reported_no c2 E2); auto.
  Qed.

End Cursor.

Section Final.
  Variable grow : nat -> nat.
  Hypothesis Hgrow : forall c, c < grow c.
  Context {Nd V A B D G : Type} (gvc : Nd -> V * list Nd) (nt : Nd -> tree Nd).
  Hypothesis H : node_tree gvc nt.
  Context (c1 : chain V A) (f : G -> list N -> A -> G * B) (c2 : chain B D).
  Hypothesis Hp : has_prune c1 = true.
  Notation val := (fun x : pos Nd => nval gvc (pos_here x)).
  Notation hv := (hvis grow val xpath (@xdepth Nd) c1 f).
  Notation pth := (fun st : dclos c1 * pointer * G * bool => reported c1 (fst (fst (fst st))) []).
  Notation uv := (uvis hv pth (@xdepth Nd) c2).
  Notation upth := (fun (g : (dclos c1 * pointer * G * bool) * dclos c2) (x : pos Nd) => reported c2 (snd g) (pth (fst g))).
  Notation ucur := (fun g : (dclos c1 * pointer * G * bool) * dclos c2 => reported c2 (snd g) (pth (fst g))).

  (** The walk of the specification is this one. *)
  Definition pack_state (s : dclos c1 * pointer * G * dclos c2 * bool) : (dclos c1 * pointer * G * bool) * dclos c2 :=
    let '(gs1, p, g, gs2, fr) := s in ((gs1, p, g, fr), gs2).
  Definition unpack_state (s : (dclos c1 * pointer * G * bool) * dclos c2) : dclos c1 * pointer * G * dclos c2 * bool :=
    let '((gs1, p, g, fr), gs2) := s in (gs1, p, g, gs2, fr).

  Lemma walk_pack {G1 G2 X T} (to : G1 -> G2) (from : G2 -> G1) (v1 : G1 -> X -> G1 * outcome T) (v2 : G2 -> X -> G2 * outcome T) t :
    (forall g, from (to g) = g) ->
    (forall g x, In x (preorder t) -> v2 (to g) x = let '(g1, o) := v1 g x in (to g1, o)) ->
    forall g, walk v2 (to g) t = let '(g1, o) := walk v1 g t in (to g1, o).
  Proof.
    intros Hft; induction t as [x ts IH] using tree_ind'; intros Hv g; rewrite !walk_node.
    rewrite (Hv g x) by (left; reflexivity); destruct (v1 g x) as [g1 [|a [|]]]; cbn; try reflexivity.
    assert (Hk : forall ts', Forall (fun t => forall g, walk v2 (to g) t = let '(g1, o) := walk v1 g t in (to g1, o)) ts' ->
      forall g, walk_list (walk v2) (to g) ts' = let '(g1, o) := walk_list (walk v1) g ts' in (to g1, o)).
    { clear; intros ts' Hf; induction Hf as [|t ts' Ht _ IHl]; intros g; [rewrite !walk_list_nil; reflexivity|].
      rewrite !walk_list_cons, Ht; destruct (walk v1 g t) as [g1 o]; rewrite IHl; destruct (walk_list (walk v1) g1 ts'); reflexivity. }
    rewrite Hk; [destruct (walk_list (walk v1) g1 ts); reflexivity|].
    rewrite Forall_forall in *; intros t Ht g2; apply IH; [exact Ht|]; intros g3 y Hy; apply Hv; right; apply in_flat_map; eauto.
  Qed.

  Lemma spec_walk n s : (N.of_nat (length (preorder (nt n))) <= usize_max)%N ->
    walk uv (pack_state s) (positions (nt n)) = let '(s', o) := walk (after_prunes grow (nval gvc) c1 f c2) s (positions (nt n)) in (pack_state s', o).
  Proof.
    intros Hb; apply (walk_pack pack_state unpack_state).
    - intros [[[[? ?] ?] ?] ?]; reflexivity.
    - intros [[[[gs1 p] g] gs2] fr] x Hx; unfold after_prunes, after_prunes_by, uvis, hvis, mvis, dvis, at_node_exact; cbn [pack_state fst snd].
      rewrite (xpath_small _ _ Hx) by exact Hb; unfold xdepth.
      pose proof (dvisit_cursor c1 Hp gs1 (map N.of_nat (pos_path x)) (N.of_nat (length (pos_path x))) (nval gvc (pos_here x)) []) as Hc.
      destruct (dvisit c1 gs1 (map N.of_nat (pos_path x)) (N.of_nat (length (pos_path x))) (nval gvc (pos_here x))) as [gs1' [|a dn]]; cbn [fst snd]; [reflexivity|].
      assert (Hl : length (reported c1 gs1' []) = length (pos_path x)) by (rewrite Hc, drift_length, map_length; reflexivity).
      destruct (f g _ a) as [g' b]; cbn [fst snd]; rewrite Hl.
      destruct (dvisit c2 gs2 (reported c1 gs1' []) (N.of_nat (length (pos_path x))) b) as [gs2' o2]; reflexivity.
  Qed.

  Lemma behind_prune n g : (N.of_nat (length (preorder (nt n))) <= usize_max)%N ->
    let '((gs1, p, g', gs2, freed), o) :=
      walk (after_prunes grow (nval gvc) c1 f c2) (dclos_init [] c1, no_pointer, g, dclos_init [] c2, false) (positions (nt n)) in
    let P := map_path_after grow gvc n c1 f g in
    if freed then collect_tree (tree_chain P c2) ⇓ UB
    else exists s, collect_tree (tree_chain P c2) ⇓ Ok (o, s) /\
      mem_closures grow tree_depth [] (into_pipeline gvc n) c1 (fst (chain_first tree_depth [] P c2 s)) = dforget c1 gs1 /\
      snd (chain_first tree_depth [] P c2 s) = g' /\ closures tree_depth [] P c2 s = dforget c2 gs2.
  Proof.
    intros Hb.
    assert (HL : forall p (x : pos Nd), length p = length (xpath x) -> tree_depth p = Ok (xdepth x)).
    { intros p x Hl; unfold tree_depth, xdepth; rewrite Hl; unfold xpath; rewrite map_length; reflexivity. }
    assert (Hbound : (N.of_nat (fsize ([] ++ [positions (nt n)])) <= usize_max)%N).
    { cbn [app]; unfold fsize; cbn [map]; unfold positions; rewrite tsize_annotate; cbn [list_sum fold_right]; rewrite Nat.add_0_r; exact Hb. }
    destruct (mem_chain_sim grow Hgrow (into_pipeline gvc n) tree_depth [] val xpath (@xdepth Nd) pok_exact (exact_base (Nd := Nd)) HL
      (base_R (fun l : list Nd => l) (map Some) (fun p ab n => annotate p ab (nt n)) []) (nary_sim gvc nt [] (pt_new n []) H)
      (@nil (tree (pos Nd))) [positions (nt n)] (base_R_init (fun l : list Nd => l) (map Some) (fun p ab n => annotate p ab (nt n)) [] n) Hbound (Forall_nil _) c1 Hp) as (R1 & HR1).
    pose proof (stage_sim grow (into_pipeline gvc n) tree_depth [] val xpath (@xdepth Nd) _ _ c1 f g Hp R1 HR1) as Hst.
    pose proof (stage_init grow (into_pipeline gvc n) tree_depth [] val xpath (@xdepth Nd) _ _ c1 f g R1 HR1) as Hin.
    assert (E0 : reported c1 (dclos_init [] c1) [] = []) by (clear - Hp; revert Hp; induction c1; cbn; intros; try discriminate; auto).
    rewrite E0 in Hin; change (first_pointer grow []) with no_pointer in Hin.
    set (P := map_path_after grow gvc n c1 f g).
    destruct (uchain_sim P hv pth xpath (@xdepth Nd) (fun st => snd st) tree_depth [] _ Hst (hvis_len grow val xpath (@xdepth Nd) c1 f Hp) HL _ _ _ Hin Hbound (Forall_nil _) c2) as (R & HR & Hcl & Hi).
    pose proof (simu_items _ _ _ _ _ _ HR _ _ _ _ Hi) as Hit; cbv zeta in Hit; cbn [app] in Hit.
    pose proof (walk_ext_root uv upth ucur (fun x => length (xpath x)) (fun g x => eq_refl)) as Hext.
    specialize (Hext ltac:(intros g1 x g2 E; pose proof (uvis_cursor grow val xpath (@xdepth Nd) c1 f c2 Hp g1 x) as Hc; rewrite E in Hc; exact Hc)
      ltac:(intros g1 x g2 a dn E; pose proof (uvis_cursor grow val xpath (@xdepth Nd) c1 f c2 Hp g1 x) as Hc; rewrite E in Hc; exact Hc)
      (positions (nt n)) (dclos_init [] c1, no_pointer, g, false, dclos_init [] c2) (annotate_deep (nt n) [] [])).
    assert (Ew : walk uv (dclos_init [] c1, no_pointer, g, false, dclos_init [] c2) (positions (nt n)) =
      let '(g1, o) := walk (with_rep uv upth) (dclos_init [] c1, no_pointer, g, false, dclos_init [] c2) (positions (nt n)) in (g1, option_map (tree_map fst) o)).
    { apply walk_omap; intros g1 x _; unfold with_rep; destruct (uv g1 x) as [g2 [|a dn]]; reflexivity. }
    pose proof (spec_walk n (dclos_init [] c1, no_pointer, g, dclos_init [] c2, false) Hb) as Es; cbn [pack_state] in Es; rewrite Ew in Es.
    unfold walk_all in Hit; rewrite walk_list_cons in Hit.
    destruct (walk (with_rep uv upth) (dclos_init [] c1, no_pointer, g, false, dclos_init [] c2) (positions (nt n))) as [st o'].
    rewrite walk_list_nil in Hit; cbn [fst snd] in Hit, Hext; rewrite app_nil_r in Hit.
    destruct (walk (after_prunes grow (nval gvc) c1 f c2) (dclos_init [] c1, no_pointer, g, dclos_init [] c2, false) (positions (nt n))) as [[[[[gs1 p] g'] gs2] freed] o].
    cbn [pack_state] in Es; injection Es as -> <-; cbn [fst snd] in Hit; cbv zeta.
    destruct freed.
    - destruct Hit as (l & rest & Hbl & El).
      apply bind_ub.
      inversion Hbl as [s0 Hn|s0 a x s1 l1 Hn Hpk Hb1]; subst.
      + apply loop_ub, bind_ub; exact Hn.
      + destruct o' as [t'|]; cbn [opt_list flat_map] in El; [|discriminate]; rewrite app_nil_r in El.
        specialize (Hext t' eq_refl); destruct t' as [[a' [x' q']] ts]; cbn [preorder] in El; injection El as <- <- El.
        eapply loop_step.
        * eapply (body_some _ pok_rep (@length (tree D)) (@attach_top D) (fun st a _ => Ok (TNode a [] :: st)) snd (fun x => length (snd x))
            (fun _ _ _ _ _ => eq_refl)); [intros p0 x0 [-> _]; reflexivity|exact Hn|exact Hpk|apply cl_done; cbn; lia|reflexivity].
        * eapply (blows_loop _ pok_rep (@length (tree D)) (@attach_top D) (fun st a _ => Ok (TNode a [] :: st)) snd (fun x => length (snd x))
            (fun _ _ _ _ _ => eq_refl) (fun p0 x0 Hx => f_equal (@length N) (proj1 Hx)) (fun _ => True) (fun x => 0 < length (snd x))); [|exact Hb1|exact Logic.I|].
          -- intros st a x _ Hx; destruct (closes_some (length (snd x)) st Hx) as (st1 & Hc); exists st1; eexists; split; [exact Hc|split; [reflexivity|exact Logic.I]].
          -- apply Forall_forall; intros [a x] Hx.
             assert (Hin' : In (a, x) (flat_map preorder ts)) by (rewrite El; apply in_or_app; auto).
             exact (ext_deep _ _ Hext _ Hin').
    - destruct Hit as (s & Hit & HRs); destruct (Hcl _ _ _ _ HRs) as [E1 E2]; exists s; split; [|split; [|split; [|exact E1]]].
      + replace (option_map (tree_map fst) o') with (option_map (tree_map fst) (option_map (tree_map relp) (option_map (tree_map repd) o'))).
        2:{ destruct o' as [t|]; [|reflexivity]; cbn [option_map]; rewrite !tree_map_comp; reflexivity. }
        eapply collect_ok; [exact len_of_path| |].
        * destruct o' as [t|]; [|exact I]; cbn [option_map]; apply (ext_below _ [] (Hext t eq_refl)).
        * replace (flat_map preorder (opt_list (option_map (tree_map relp) (option_map (tree_map repd) o'))))
            with (map (fun ax => (fst ax, rep_pos (snd (snd ax)))) (flat_map preorder (opt_list o'))).
          -- refine (items_map _ pok_rep _ (fun xq => rep_pos (snd xq)) _ _ _ _ Hit).
             intros p0 x [-> Hs]; apply rep_xpath; exact Hs.
          -- destruct o' as [t|]; [|reflexivity]; cbn [option_map opt_list flat_map]; rewrite !app_nil_r, tree_map_comp, preorder_map; reflexivity.
      + unfold hR in E2; cbn [fst snd] in E2; destruct E2 as (E2 & _); apply (ms_clos _ _ _ _ _ _ _ _ _ _ _ HR1 _ _ _ _ E2).
      + unfold hR in E2; cbn [fst snd] in E2; apply E2.
  Qed.
End Final.
