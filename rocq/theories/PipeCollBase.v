(** * PipeCollBase: the path-tracking collection iterators perform the plain walk over the positions of the collection. *)
From Verif Require Import Prelim PrelimFacts Spec SpecFacts SpecPipe SpecPipeColl ModelNode NodeFacts ModelPre ModelPipe ModelPipeColl
  ProofsPlain Slots PipeCore PipeBase.

Section CollBase.
  Context {Nd V I C : Type} (gv : Nd -> V * C) (into_iter : C -> list I) (sl : list I -> list (option Nd)).
  Variable next : nat -> ptrack Nd I C -> Res (option V * ptrack Nd I C).
  Variable T : list nat -> list Nd -> Nd -> tree (pos Nd).
  Variable s0 : ptrack Nd I C.
  Variable R1 : list nat -> ptrack Nd I C -> unit -> list (tree (pos Nd)) -> list (tree (pos Nd)) -> Prop.
  Hypothesis Hsim : forall P0, simulates (mkPipe (ptrack Nd I C) s0 next pt_current_path pt_prune) (base_vis gv) pok_exact (R1 P0).
  Hypothesis Hnew : forall P0 n, R1 P0 (pt_new n (map wrap P0)) tt [] [T P0 [] n].

  Definition upcoming (j : nat) (trees : list Nd) : list (tree (pos Nd)) := mapi (fun i n => T [i] [] n) j trees.

  Definition coll_R (s : ctrack Nd I C) (g : unit) (d r : list (tree (pos Nd))) : Prop :=
    exists j, ct_count s = N.of_nat j /\ (N.of_nat (j + length (ct_trees s)) <= usize_max)%N /\
      match ct_cur s with
      | None => d = [] /\ r = upcoming j (ct_trees s)
      | Some it => exists P0 r1, R1 P0 it g d r1 /\ r = r1 ++ upcoming j (ct_trees s)
      end.

  Lemma take_step j trees cur n rest : trees = n :: rest -> (N.of_nat (j + length trees) <= usize_max)%N ->
    @ct_take Nd V I C trees (N.of_nat j) cur = Ok (inl (mkCt rest (N.of_nat (S j)) (Some (pt_new n [N.of_nat j])))).
  Proof.
    intros -> Hb; cbn [ct_take]; cbn [length] in Hb; rewrite checked_succ_lt by lia; cbn [bindR].
    replace (N.of_nat j + 1)%N with (N.of_nat (S j)) by lia; reflexivity.
  Qed.

  (** From an exhausted (or absent) tree iterator. *)
  Lemma coll_take trees : forall j cur o d' r' g', (N.of_nat (j + length trees) <= usize_max)%N ->
    match cur with None => True | Some it => exists P0, R1 P0 it tt [] [] end ->
    vstep (base_vis gv) tt (upcoming j trees) = (o, d', r', g') ->
    exists r s', ct_take trees (N.of_nat j) cur = Ok r /\
      match r with
      | inl s1 => (fun f => loop (ct_body next) f s1) ⇓ Ok (option_map fst o, s')
      | inr r => r = (option_map fst o, s')
      end /\ coll_R s' g' d' r' /\ (forall a x, o = Some (a, x) -> pok_exact (ct_path s') x).
  Proof.
    intros j cur o d' r' g' Hb Hcur E; destruct trees as [|n rest].
    - cbn in E; injection E as <- <- <- <-.
      exists (inr (None, mkCt [] (N.of_nat j) cur)), (mkCt [] (N.of_nat j) cur); split; [reflexivity|]; split; [reflexivity|]; split.
      + exists j; cbn; split; [reflexivity|]; split; [exact Hb|].
        destruct cur as [it|]; [|auto]; destruct Hcur as (P0 & HR); exists P0, []; auto.
      + intros; discriminate.
    - unfold upcoming in E; rewrite mapi_cons in E; fold (upcoming (S j) rest) in E.
      pose proof (Hnew [j] n) as Hi.
      destruct (vstep (base_vis gv) tt ([] ++ [T [j] [] n])) as [[[o1 d1] r1] g1] eqn:E1.
      destruct (sim_next _ _ _ _ (Hsim [j]) _ _ _ _ Hi _ _ _ _ E1) as (it & Hc & HR & Hp); cbn in Hc, Hp.
      destruct (T [j] [] n) as [x ts] eqn:ET; cbn in E, E1.
      injection E as <- <- <- <-; injection E1 as <- <- <- <-.
      cbn [length] in Hb.
      exists (inl (mkCt rest (N.of_nat (S j)) (Some (pt_new n [N.of_nat j])))), (mkCt rest (N.of_nat (S j)) (Some it)).
      split; [apply (take_step j (n :: rest) cur n rest eq_refl); cbn [length]; lia|]; split; [|split].
      + apply loop_done; unfold ct_body; cbn [ct_cur ct_trees ct_count].
        rewrite wrap_small in Hc by lia.
        eapply conv_bind; [exact Hc|]; now_conv.
      + exists (S j); cbn; split; [reflexivity|]; split; [lia|]; exists [j], []; split; [exact HR|reflexivity].
      + intros a y E; injection E as <- <-; apply (Hp _ _ eq_refl).
  Qed.

  Definition coll_pipe (s : ctrack Nd I C) : pipe V := mkPipe (ctrack Nd I C) s (ct_next next) ct_path ct_prune.

  Lemma coll_sim s1 : simulates (coll_pipe s1) (base_vis gv) pok_exact coll_R.
  Proof.
    split.
    - intros [trees count cur] [] d r (j & Ej & Hb & HR) o d' r' g' E; cbn in Ej, Hb, HR; subst count.
      cbn [p_next coll_pipe p_path p_state].
      destruct cur as [it|].
      + destruct HR as (P0 & r1 & HR & ->).
        destruct (vstep (base_vis gv) tt (d ++ r1)) as [[[o1 d1] r2] g1] eqn:E1.
        destruct (sim_next _ _ _ _ (Hsim P0) _ _ _ _ HR _ _ _ _ E1) as (it' & Hc & HR' & Hp); cbn in Hc, Hp.
        destruct (d ++ r1) as [|[x ts] dr] eqn:Ed.
        * apply app_eq_nil in Ed as [-> ->].
          cbn in E1; injection E1 as <- <- <- <-; cbn [app] in E.
          destruct (coll_take trees j (Some it') _ _ _ _ Hb (ex_intro _ P0 HR') E) as (rr & s' & Et & Hr & HRs & Hps).
          exists s'; split; [|split; [exact HRs|exact Hps]].
          unfold ct_next; destruct rr as [s2|rr].
          -- eapply loop_step; [|exact Hr]; unfold ct_body; cbn [ct_cur ct_trees ct_count].
             eapply conv_bind; [exact Hc|]; cbn [option_map]; apply conv_eq; intros f; exact Et.
          -- subst rr; apply loop_done; unfold ct_body; cbn [ct_cur ct_trees ct_count].
             eapply conv_bind; [exact Hc|]; cbn [option_map]; apply conv_eq; intros f; exact Et.
        * cbn in E1; injection E1 as <- <- <- <-.
          rewrite app_assoc, Ed in E; cbn in E; injection E as <- <- <- <-.
          exists (mkCt trees (N.of_nat j) (Some it')); split; [|split].
          -- apply loop_done; unfold ct_body; cbn [ct_cur ct_trees ct_count].
             eapply conv_bind; [exact Hc|]; now_conv.
          -- exists j; cbn; split; [reflexivity|]; split; [exact Hb|]; exists P0, dr; auto.
          -- intros a y E; injection E as <- <-; apply (Hp _ _ eq_refl).
      + destruct HR as [-> ->]; cbn [app] in E.
        destruct (coll_take trees j None _ _ _ _ Hb Logic.I E) as (rr & s' & Et & Hr & HRs & Hps).
        exists s'; split; [|split; [exact HRs|exact Hps]].
        unfold ct_next; destruct rr as [s2|rr].
        * eapply loop_step; [|exact Hr]; apply conv_eq; intros f; exact Et.
        * subst rr; apply loop_done, conv_eq; intros f; exact Et.
    - intros [trees count cur] [] d r (j & Ej & Hb & HR); exists j; cbn in *; split; [exact Ej|]; split; [exact Hb|].
      destruct cur as [it|]; [|tauto].
      destruct HR as (P0 & r1 & HR & ->); exists P0, r1; split; [|reflexivity].
      apply (sim_prune _ _ _ _ (Hsim P0) _ _ _ _ HR).
    - intros [trees count [it|]]; reflexivity.
  Qed.

  Lemma coll_R_init trees : (N.of_nat (length trees) <= usize_max)%N -> coll_R (ct_new trees) tt [] (upcoming 0 trees).
  Proof. intros Hb; exists 0; cbn; auto. Qed.
End CollBase.

Section Instances.
  Context {Nd V : Type}.

  Lemma nary_coll_sim (gvc : Nd -> V * list Nd) (nt : Nd -> tree Nd) trees : node_tree gvc nt -> (N.of_nat (length trees) <= usize_max)%N ->
    exists R, simulates (into_pipeline_each gvc trees) (base_vis gvc) pok_exact R /\
      R (p_init (into_pipeline_each gvc trees)) tt [] (mapi (fun i n => annotate [i] [] (nt n)) 0 trees).
  Proof.
    intros H Hb; destruct trees as [|n0 trees].
    - exists (fun s _ d r => s = ct_new [] /\ d = [] /\ r = []); split; [|auto].
      split.
      + intros s [] d r (-> & -> & ->) o d' r' g' E; cbn in E; injection E as <- <- <- <-.
        exists (ct_new []); split; [|split; [auto|intros; discriminate]].
        apply loop_done; now_conv.
      + intros s g d r (-> & -> & ->); auto.
      + intros [tr ct [it|]]; reflexivity.
    - exists (coll_R (fun p ab n => annotate p ab (nt n)) (base_R (fun l => l) (map Some) (fun p ab n => annotate p ab (nt n)))); split.
      + apply (coll_sim gvc (pt_next gvc) (fun p ab n => annotate p ab (nt n)) (pt_new n0 [])).
        * intros P0; apply (nary_sim gvc nt P0 (pt_new n0 []) H).
        * intros P0 n; apply (base_R_init (fun l => l) (map Some) (fun p ab n => annotate p ab (nt n))).
      + exists 0; cbn; auto.
  Qed.

  Lemma binary_coll_sim (gvcb : Nd -> V * (option Nd * option Nd)) (bt : Nd -> btree Nd) trees : node_btree gvcb bt -> (N.of_nat (length trees) <= usize_max)%N ->
    exists R, simulates (into_pipeline_each_binary gvcb trees) (base_vis gvcb) pok_exact R /\
      R (p_init (into_pipeline_each_binary gvcb trees)) tt [] (mapi (fun i n => flat (bannotate [i] [] (bt n))) 0 trees).
  Proof.
    intros H Hb; destruct trees as [|n0 trees].
    - exists (fun s _ d r => s = ct_new [] /\ d = [] /\ r = []); split; [|auto].
      split.
      + intros s [] d r (-> & -> & ->) o d' r' g' E; cbn in E; injection E as <- <- <- <-.
        exists (ct_new []); split; [|split; [auto|intros; discriminate]].
        apply loop_done; now_conv.
      + intros s g d r (-> & -> & ->); auto.
      + intros [tr ct [it|]]; reflexivity.
    - exists (coll_R (fun p ab n => flat (bannotate p ab (bt n))) (base_R pair_iter (fun l => l) (fun p ab n => flat (bannotate p ab (bt n))))); split.
      + apply (coll_sim gvcb (ptb_next gvcb) (fun p ab n => flat (bannotate p ab (bt n))) (pt_new n0 [])).
        * intros P0; apply (binary_sim gvcb bt P0 (pt_new n0 []) H).
        * intros P0 n; apply (base_R_init pair_iter (fun l => l) (fun p ab n => flat (bannotate p ab (bt n)))).
      + exists 0; cbn; auto.
  Qed.
End Instances.
