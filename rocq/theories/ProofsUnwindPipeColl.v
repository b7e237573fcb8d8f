(** * ProofsUnwindPipeColl: the same over a collection. *)
From Verif Require Import Prelim PrelimFacts Spec SpecFacts ModelUnwind SpecUnwind SpecPipe SpecPipeColl SpecUnwindPipe SpecObs ModelNode NodeFacts ModelPre ModelPipe
  ModelPipeColl ModelUnwindPipe ModelUnwindPipeColl ProofsPlain ProofsUnwind ProofsUnwindIn Slots PipeCore PipeBase PipeChain PipeEnd ProofsPipe PipeFinal
  PipeCollBase ProofsPipeColl PipeCollFinal ProofsUnwindPipe.
Local Notation outcome := SpecPipe.outcome.

Lemma usim_keeps {A G X} (P : pipe (result A)) (vis : G -> X -> G * outcome (result A)) pok pokU R (Q : X -> Prop) : usim P vis pok pokU R ->
  usim P vis (fun p x => pok p x /\ Q x) (fun p x => pokU p x /\ Q x) (fun s g d r => R s g d r /\ Forall Q (flat_map preorder (d ++ r))).
Proof.
  intros [H1 H2 H3]; split.
  - intros s g d r [HR HQ] o d' r' g' E; destruct (H1 _ _ _ _ HR _ _ _ _ E) as (s' & Hc & HR' & Hp & Hu).
    destruct (vstep_keeps _ _ _ _ _ _ _ _ E HQ) as [HQ' Hx].
    exists s'; split; [exact Hc|split; [split; assumption|split]].
    + intros a x Eo; split; [eapply Hp|eapply Hx]; exact Eo.
    + intros x Eo; split; [eapply Hu|eapply Hx]; exact Eo.
  - intros s g d r [HR HQ]; split; [eapply H2; exact HR|].
    rewrite flat_map_app in HQ; apply Forall_app in HQ as [_ HQ]; exact HQ.
  - exact H3.
Qed.

Section UCollBase.
  Context {Nd V I C : Type} (vis : unit -> pos Nd -> unit * outcome (result V)).
  Hypothesis Hvis : forall g x, exists b, vis g x = (g, Keep b true).
  Variable next : nat -> ptrack Nd I C -> Res (option (result V) * ptrack Nd I C).
  Variable T : list nat -> list Nd -> Nd -> tree (pos Nd).
  Variable s0 : ptrack Nd I C.
  Variable R1 : list nat -> ptrack Nd I C -> unit -> list (tree (pos Nd)) -> list (tree (pos Nd)) -> Prop.
  Hypothesis Hsim : forall P0, usim (mkPipe (ptrack Nd I C) s0 next pt_current_path pt_prune) vis pok_exact pok_exact (R1 P0).
  Hypothesis Hnew : forall P0 n, R1 P0 (pt_new n (map wrap P0)) tt [] [T P0 [] n].

  Definition opok (p : list N) (o : option (result V * pos Nd)) : Prop :=
    (forall a x, o = Some (Got a, x) -> pok_exact p x) /\ (forall x, o = Some (Unwound, x) -> pok_exact p x).

  Lemma ucoll_take trees : forall j cur o d' r' g', (N.of_nat (j + length trees) <= usize_max)%N ->
    match cur with None => True | Some it => exists P0, R1 P0 it tt [] [] end ->
    vstep vis tt (upcoming T j trees) = (o, d', r', g') ->
    exists r s', ct_take trees (N.of_nat j) cur = Ok r /\
      match r with
      | inl s1 => (fun f => loop (ct_body next) f s1) ⇓ Ok (option_map fst o, s')
      | inr r => r = (option_map fst o, s')
      end /\ coll_R T R1 s' g' d' r' /\ opok (ct_path s') o.
  Proof.
    intros j cur o d' r' g' Hb Hcur E; destruct trees as [|n rest].
    - cbn in E; injection E as <- <- <- <-.
      exists (inr (None, mkCt [] (N.of_nat j) cur)), (mkCt [] (N.of_nat j) cur); split; [reflexivity|]; split; [reflexivity|]; split.
      + exists j; cbn; split; [reflexivity|]; split; [exact Hb|].
        destruct cur as [it|]; [|auto]; destruct Hcur as (P0 & HR); exists P0, []; auto.
      + split; intros; discriminate.
    - unfold upcoming in E; rewrite mapi_cons in E; fold (upcoming T (S j) rest) in E.
      pose proof (Hnew [j] n) as Hi.
      destruct (vstep vis tt ([] ++ [T [j] [] n])) as [[[o1 d1] r1] g1] eqn:E1.
      destruct (us_next _ _ _ _ _ (Hsim [j]) _ _ _ _ Hi _ _ _ _ E1) as (it & Hc & HR & Hp); cbn in Hc, Hp.
      destruct (T [j] [] n) as [x ts] eqn:ET; cbn in E, E1.
      destruct (Hvis tt x) as (b & Eb); rewrite Eb in E, E1.
      injection E as <- <- <- <-; injection E1 as <- <- <- <-.
      cbn [length] in Hb.
      exists (inl (mkCt rest (N.of_nat (S j)) (Some (pt_new n [N.of_nat j])))), (mkCt rest (N.of_nat (S j)) (Some it)).
      split; [apply (take_step j (n :: rest) cur n rest eq_refl); cbn [length]; lia|]; split; [|split].
      + apply loop_done; unfold ct_body; cbn [ct_cur ct_trees ct_count].
        rewrite wrap_small in Hc by lia.
        eapply conv_bind; [exact Hc|]; now_conv.
      + exists (S j); cbn; split; [reflexivity|]; split; [lia|]; exists [j], []; split; [exact HR|reflexivity].
      + exact Hp.
  Qed.

  Lemma ucoll_sim s1 : usim (mkPipe (ctrack Nd I C) s1 (ct_next next) ct_path ct_prune) vis pok_exact pok_exact (coll_R T R1).
  Proof.
    split.
    - intros [trees count cur] [] d r (j & Ej & Hb & HR) o d' r' g' E; cbn in Ej, Hb, HR; subst count.
      cbn [p_next p_path p_state]; fold (opok).
      destruct cur as [it|].
      + destruct HR as (P0 & r1 & HR & ->).
        destruct (vstep vis tt (d ++ r1)) as [[[o1 d1] r2] g1] eqn:E1.
        destruct (us_next _ _ _ _ _ (Hsim P0) _ _ _ _ HR _ _ _ _ E1) as (it' & Hc & HR' & Hp); cbn in Hc, Hp.
        destruct (d ++ r1) as [|[x ts] dr] eqn:Ed.
        * apply app_eq_nil in Ed as [-> ->].
          cbn in E1; injection E1 as <- <- <- <-; cbn [app] in E.
          destruct (ucoll_take trees j (Some it') _ _ _ _ Hb (ex_intro _ P0 HR') E) as (rr & s' & Et & Hr & HRs & Hps).
          exists s'; split; [|split; [exact HRs|exact Hps]].
          unfold ct_next; destruct rr as [s2|rr].
          -- eapply loop_step; [|exact Hr]; unfold ct_body; cbn [ct_cur ct_trees ct_count].
             eapply conv_bind; [exact Hc|]; cbn [option_map]; apply conv_eq; intros f; exact Et.
          -- subst rr; apply loop_done; unfold ct_body; cbn [ct_cur ct_trees ct_count].
             eapply conv_bind; [exact Hc|]; cbn [option_map]; apply conv_eq; intros f; exact Et.
        * destruct (Hvis tt x) as (b & Eb); cbn in E1; rewrite Eb in E1; injection E1 as <- <- <- <-.
          rewrite app_assoc, Ed in E; cbn in E; rewrite Eb in E; injection E as <- <- <- <-.
          exists (mkCt trees (N.of_nat j) (Some it')); split; [|split].
          -- apply loop_done; unfold ct_body; cbn [ct_cur ct_trees ct_count].
             eapply conv_bind; [exact Hc|]; now_conv.
          -- exists j; cbn; split; [reflexivity|]; split; [exact Hb|]; exists P0, dr; auto.
          -- exact Hp.
      + destruct HR as [-> ->]; cbn [app] in E.
        destruct (ucoll_take trees j None _ _ _ _ Hb Logic.I E) as (rr & s' & Et & Hr & HRs & Hps).
        exists s'; split; [|split; [exact HRs|exact Hps]].
        unfold ct_next; destruct rr as [s2|rr].
        * eapply loop_step; [|exact Hr]; apply conv_eq; intros f; exact Et.
        * subst rr; apply loop_done, conv_eq; intros f; exact Et.
    - intros [trees count cur] [] d r (j & Ej & Hb & HR); exists j; cbn in *; split; [exact Ej|]; split; [exact Hb|].
      destruct cur as [it|]; [|tauto].
      destruct HR as (P0 & r1 & HR & ->); exists P0, r1; split; [|reflexivity].
      apply (us_prune _ _ _ _ _ (Hsim P0) _ _ _ _ HR).
    - intros [trees count [it|]]; reflexivity.
  Qed.
End UCollBase.

Lemma uempty_sim {Nd V I C} (vis : unit -> pos Nd -> unit * outcome (result V)) (next : nat -> ptrack Nd I C -> Res (option (result V) * ptrack Nd I C)) :
  usim (mkPipe (ctrack Nd I C) (ct_new []) (ct_next next) ct_path ct_prune) vis pok_exact pok_exact (fun s _ d r => s = ct_new [] /\ d = [] /\ r = []).
Proof.
  split.
  - intros s [] d r (-> & -> & ->) o d' r' g' E; cbn in E; injection E as <- <- <- <-.
    exists (ct_new []); split; [|split; [auto|split; intros; discriminate]].
    apply loop_done; now_conv.
  - intros s g d r (-> & -> & ->); auto.
  - intros [tr ct [it|]]; reflexivity.
Qed.

Lemma ukept_len1 (b : bool) Nd : forall p (x : pos Nd), (if b then pok_len1 else pok_exact1) p x -> length p = length (pos_path x).
Proof. intros p x Hp; apply pok_len1_any in Hp; apply Hp. Qed.

Section UNary.
  Context {Nd V : Type} (gvc : Nd -> option (V * list Nd)) (nt : Nd -> tree Nd).
  Hypothesis H : fnode_tree gvc nt.

  Lemma unary_coll_sim trees : (N.of_nat (length trees) <= usize_max)%N ->
    exists R, usim (uinto_pipeline_each gvc trees) (ubase_vis gvc) pok_exact pok_exact R /\
      R (p_init (uinto_pipeline_each gvc trees)) tt [] (mapi (fun i n => annotate [i] [] (nt n)) 0 trees).
  Proof.
    intros Hb; destruct trees as [|n0 trees].
    - exists (fun s _ d r => s = ct_new [] /\ d = [] /\ r = []); split; [apply uempty_sim|auto].
    - exists (coll_R (fun p ab n => annotate p ab (nt n)) (base_R (fun l => l) (map Some) (fun p ab n => annotate p ab (nt n)))); split.
      + apply (ucoll_sim (ubase_vis gvc)) with (s0 := pt_new n0 []).
        * intros g x; eexists; reflexivity.
        * intros P0; apply (unary_base_sim gvc nt H P0 (pt_new n0 [])).
        * intros P0 n; apply (base_R_init (fun l => l) (map Some) (fun p ab n => annotate p ab (nt n))).
      + exists 0; cbn; auto.
  Qed.

  Lemma ueach_gives {A} (c : uchain V A) trees : utrue_paths c = true -> small_collection trees ->
    (uhas_prune c = true -> (N.of_nat (length (all_nodes nt trees)) <= usize_max)%N) ->
    let w := walk_all (with_node (uat_node_each (seen gvc) c)) (uclos_init c) (each_positions (map nt trees)) in
    let P := ueach_chain (uinto_pipeline_each gvc trees) c in
    delivers (p_next P) (p_path P) (uclosures _ _ _ c) (p_init P)
      (pok_of (if uhas_prune c then pok_len1 else pok_exact1) (if uhas_prune c then fun _ _ => True else pok_exact1))
      (flat_map preorder (snd w)) (fst w).
  Proof.
    intros Ht Hc Hb w P.
    destruct (unary_coll_sim trees Hc) as (R0 & Hs0 & Hi0).
    destruct (uchain_sim (uinto_pipeline_each gvc trees) coll_depth [0%N] (fun x => seen gvc (pos_here x)) xpath (fun x => N.of_nat (cdepth x)) pok_exact1 pok_len1
      pok_exact1_facts pok_len1_facts _ (usim_keeps _ _ _ _ _ rooted Hs0) [] (mapi (fun i n => annotate [i] [] (nt n)) 0 trees)
      (conj Hi0 (each_rooted nt trees)) c Ht) as (R & HR & Hcl & Hi).
    { intros Hp; cbn [app]; rewrite fsize_each; split; [auto|]; constructor; [|constructor]; rewrite N.add_0_l; auto. }
    assert (Ew : walk_all (with_node (uchain_vis (fun x => seen gvc (pos_here x)) xpath (fun x => N.of_nat (cdepth x)) c)) (uclos_init c)
                   (mapi (fun i n => annotate [i] [] (nt n)) 0 trees) = w).
    { subst w; rewrite each_positions_map; unfold walk_all; apply walk_list_ext_in.
      intros g x Hx; unfold with_node, uchain_vis, uat_node_each.
      destruct (uhas_prune c) eqn:Hp.
      - rewrite (each_xpath nt trees x Hc) by (auto; apply Hb; reflexivity); reflexivity.
      - rewrite (uvisit_no_path c Hp g (xpath x) (map N.of_nat (pos_path x))); reflexivity. }
    intros k; destruct (usim_gives _ _ _ _ _ HR _ _ _ _ Hi k) as (s' & g' & d' & r' & Hcs & Hp & Hg & HR').
    cbn [app] in Hcs, Hp, Hg; rewrite Ew in Hcs, Hp, Hg.
    exists s'; split; [exact Hcs|split; [exact Hp|]].
    intros Hl; rewrite (Hcl _ _ _ _ HR'); apply Hg; exact Hl.
  Qed.
End UNary.

Section UBinary.
  Context {Nd V : Type} (gvcb : Nd -> option (V * (option Nd * option Nd))) (bt : Nd -> btree Nd).
  Hypothesis H : fnode_btree gvcb bt.

  Lemma ubinary_coll_sim trees : (N.of_nat (length trees) <= usize_max)%N ->
    exists R, usim (uinto_pipeline_each_binary gvcb trees) (ubase_vis gvcb) pok_exact pok_exact R /\
      R (p_init (uinto_pipeline_each_binary gvcb trees)) tt [] (mapi (fun i n => flat (bannotate [i] [] (bt n))) 0 trees).
  Proof.
    intros Hb; destruct trees as [|n0 trees].
    - exists (fun s _ d r => s = ct_new [] /\ d = [] /\ r = []); split; [apply uempty_sim|auto].
    - exists (coll_R (fun p ab n => flat (bannotate p ab (bt n))) (base_R pair_iter (fun l => l) (fun p ab n => flat (bannotate p ab (bt n))))); split.
      + apply (ucoll_sim (ubase_vis gvcb)) with (s0 := pt_new n0 []).
        * intros g x; eexists; reflexivity.
        * intros P0; apply (ubinary_base_sim gvcb bt H P0 (pt_new n0 [])).
        * intros P0 n; apply (base_R_init pair_iter (fun l => l) (fun p ab n => flat (bannotate p ab (bt n)))).
      + exists 0; cbn; auto.
  Qed.

  Lemma ubeach_gives {A} (c : uchain V A) trees : small_collection trees ->
    let w := bwalk_all (with_node (uat_node_each (seen gvcb) c)) (uclos_init c) (each_bpositions (map bt trees)) in
    let P := ueach_chain_binary (uinto_pipeline_each_binary gvcb trees) c in
    delivers (p_next P) (p_path P) (uclosures_binary _ _ c) (p_init P) (pok_of pok_exact1 pok_exact1)
      (flat_map preorder (map flat (snd w))) (fst w).
  Proof.
    intros Hc w P.
    destruct (ubinary_coll_sim trees Hc) as (R0 & Hs0 & Hi0).
    destruct (ubchain_sim (uinto_pipeline_each_binary gvcb trees) coll_depth (fun x => seen gvcb (pos_here x)) xpath (fun x => N.of_nat (cdepth x)) pok_exact1 pok_len1
      pok_exact1_facts pok_len1_facts _ (usim_keeps _ _ _ _ _ rooted Hs0) [] (mapi (fun i n => flat (bannotate [i] [] (bt n))) 0 trees)
      (conj Hi0 (beach_rooted bt trees)) c) as (R & HR & Hcl & Hi).
    assert (Ew : walk_all (with_node (uchain_vis (fun x => seen gvcb (pos_here x)) xpath (fun x => N.of_nat (cdepth x)) c)) (uclos_init c)
                   (mapi (fun i n => flat (bannotate [i] [] (bt n))) 0 trees) = (fst w, map flat (snd w))).
    { subst w; rewrite <- walk_all_flat, each_bpositions_map; unfold walk_all; apply walk_list_ext_in.
      intros g x Hx; unfold with_node, uchain_vis, uat_node_each.
      rewrite (beach_xpath bt trees x Hc Hx); reflexivity. }
    intros k; destruct (usim_gives _ _ _ _ _ HR _ _ _ _ Hi k) as (s' & g' & d' & r' & Hcs & Hp & Hg & HR').
    cbn [app] in Hcs, Hp, Hg; rewrite Ew in Hcs, Hp, Hg; cbn [fst snd] in Hcs, Hp, Hg.
    exists s'; split; [exact Hcs|split; [exact Hp|]].
    intros Hl; rewrite (Hcl _ _ _ _ HR'); apply Hg; exact Hl.
  Qed.
End UBinary.
