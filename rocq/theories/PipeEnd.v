(** * PipeEnd: the consuming loops (collect_tree, fold_tree, fold_path) rebuild or fold what the pipeline emits. *)
From Verif Require Import Prelim PrelimFacts Spec SpecFacts SpecPipe ModelNode NodeFacts ModelPre ModelPipe ProofsPlain PipeCore.

(** ** What a pipeline emits until it ends *)
Section Items.
  Context {A X : Type} (P : pipe A) (pok : list N -> X -> Prop).

  Inductive items : p_state P -> list (A * X) -> p_state P -> Prop :=
  | it_nil s s' : (fun f => p_next P f s) ⇓ Ok (None, s') -> items s [] s'
  | it_cons s a x s1 l s' : (fun f => p_next P f s) ⇓ Ok (Some a, s1) -> pok (p_path P s1) x ->
      items s1 l s' -> items s ((a, x) :: l) s'.

  Lemma sim_items {G} (vis : G -> X -> G * outcome A) R : simulates P vis pok R ->
    forall s g d r, R s g d r ->
    exists s', items s (flat_map preorder (snd (walk_all (with_node vis) g (d ++ r)))) s' /\
               R s' (fst (walk_all (with_node vis) g (d ++ r))) [] [].
  Proof.
    intros Hsim s g d r HR; remember (fsize (d ++ r)) as n eqn:En.
    revert s g d r HR En; induction n as [n IH] using lt_wf_ind; intros s g d r HR En.
    pose proof (walk_vstep vis g (d ++ r)) as Hw.
    destruct (vstep vis g (d ++ r)) as [[[o d1] r1] g1] eqn:E.
    pose proof (vstep_size vis g (d ++ r) _ _ _ _ E) as Hsz.
    destruct (sim_next _ _ _ _ Hsim _ _ _ _ HR _ _ _ _ E) as (s1 & Hc & HR1 & Hp).
    destruct o as [[a x]|].
    - destruct (IH (fsize (d1 ++ r1)) ltac:(lia) s1 g1 d1 r1 HR1 eq_refl) as (s' & Hit & HR').
      unfold walk_all in Hit, HR', Hw |- *; rewrite walk_list_app in Hit, HR'.
      destruct (walk_list (walk (with_node vis)) g1 d1) as [g2 o1].
      destruct (walk_list (walk (with_node vis)) g2 r1) as [g3 o2].
      rewrite Hw; cbn in Hit, HR' |- *.
      exists s'; split; [|exact HR'].
      eapply it_cons; [exact Hc|eapply Hp; reflexivity|].
      rewrite <- flat_map_app; exact Hit.
    - rewrite Hw; cbn; exists s1; split; [apply it_nil; exact Hc|].
      destruct Hsz as [-> ->]; exact HR1.
  Qed.
End Items.

Lemma loop_ext {S R} (b b' : nat -> S -> Res (S + R)) : (forall f s, b f s = b' f s) -> forall f s, loop b f s = loop b' f s.
Proof.
  intros H f; induction f as [|f IH]; intros s; cbn; [reflexivity|].
  rewrite H; destruct (b' f s) as [[?|?]| | |]; auto.
Qed.

(** ** A consuming loop in general: close the nodes that are complete, then open the new one *)
Section Consumer.
  Context {A X St : Type} (P : pipe A) (pok : list N -> X -> Prop).
  Context (len : St -> nat) (top : St -> Res St) (push : St -> A -> list N -> Res St).
  Context (pth : X -> list N) (dep : X -> nat).
  Hypothesis Hpush : forall p x, pok p x -> forall st a, push st a p = push st a (pth x).
  Hypothesis Hdep : forall p x, pok p x -> length p = dep x.
  Hypothesis len_push : forall st a p st', push st a p = Ok st' -> len st' = S (len st).
  Hypothesis len_top : forall st st', top st = Ok st' -> len st = S (len st').

  Definition close (depth fuel : nat) (st : St) : Res St :=
    loop (fun _ st => if depth <? len st then st' <- top st ;; Ok (inl st') else Ok (inr st)) fuel st.

  Definition cbody (fuel : nat) (s : p_state P * St) : Res (p_state P * St + p_state P * St) :=
    let '(i, st) := s in
    '(o, i) <- p_next P fuel i ;;
    match o with
    | None => Ok (inr (i, st))
    | Some item => st <- close (length (p_path P i)) fuel st ;; st <- push st item (p_path P i) ;; Ok (inl (i, st))
    end.

  Inductive closes (n : nat) : St -> St -> Prop :=
  | cl_done s : len s <= n -> closes n s s
  | cl_step s s1 s' : n < len s -> top s = Ok s1 -> closes n s1 s' -> closes n s s'.

  Lemma closes_conv n s s' : closes n s s' -> (fun f => close n f s) ⇓ Ok s'.
  Proof.
    induction 1 as [s Hs|s s1 s' Hs Ht _ IH]; unfold close.
    - apply loop_done, conv_eq; intros f; rewrite (proj2 (Nat.ltb_ge _ _)) by exact Hs; reflexivity.
    - eapply loop_step; [|exact IH]; apply conv_eq; intros f.
      rewrite (proj2 (Nat.ltb_lt _ _)) by exact Hs; rewrite Ht; reflexivity.
  Qed.

  Lemma closes_trans n m s s1 s' : m <= n -> closes n s s1 -> closes m s1 s' -> closes m s s'.
  Proof.
    intros Hm H1; induction H1 as [s Hs|s s2 s1 Hs Ht _ IH]; intros H2; [exact H2|].
    eapply cl_step; [lia|exact Ht|apply IH; exact H2].
  Qed.

  Fixpoint att (t : tree (A * X)) (st : St) : Res St :=
    match t with
    | TNode (a, x) ts =>
        st1 <- push st a (pth x) ;;
        st2 <- (fix go (ts : list (tree (A * X))) (st : St) : Res St :=
                  match ts with [] => Ok st | t :: ts' => st' <- att t st ;; go ts' st' end) ts st1 ;;
        top st2
    end.
  Fixpoint att_list (ts : list (tree (A * X))) (st : St) : Res St :=
    match ts with [] => Ok st | t :: ts' => st' <- att t st ;; att_list ts' st' end.

  Lemma att_node a x ts st : att (TNode (a, x) ts) st =
    (st1 <- push st a (pth x) ;; st2 <- att_list ts st1 ;; top st2).
  Proof. reflexivity. Qed.

  Fixpoint depth_ok (k : nat) (t : tree (A * X)) : Prop :=
    match t with
    | TNode (a, x) ts => dep x = k /\ (fix all l := match l with [] => True | t :: l' => depth_ok (S k) t /\ all l' end) ts
    end.
  Lemma depth_ok_node k a x ts : depth_ok k (TNode (a, x) ts) <-> dep x = k /\ Forall (depth_ok (S k)) ts.
  Proof.
    cbn; split; intros [H1 H2]; (split; [exact H1|]).
    - induction ts as [|t ts IH]; constructor; [tauto|apply IH; tauto].
    - induction H2; auto.
  Qed.

  Inductive steps : p_state P * St -> p_state P * St -> Prop :=
  | st_refl s : steps s s
  | st_step s s1 s' : (fun f => cbody f s) ⇓ Ok (inl s1) -> steps s1 s' -> steps s s'.
  Lemma steps_trans s s1 s' : steps s s1 -> steps s1 s' -> steps s s'.
  Proof. induction 1; intros H'; [exact H'|econstructor; eauto]. Qed.
  Lemma steps_loop s s1 r : steps s s1 -> (fun f => loop cbody f s1) ⇓ r -> (fun f => loop cbody f s) ⇓ r.
  Proof. induction 1 as [|s s2 s1 H1 _ IH]; intros H; [exact H|]; eapply loop_step; [exact H1|apply IH; exact H]. Qed.

  Lemma body_some i S st a x i1 st1 : (fun f => p_next P f i) ⇓ Ok (Some a, i1) -> pok (p_path P i1) x ->
    closes (dep x) S st -> push st a (pth x) = Ok st1 -> (fun f => cbody f (i, S)) ⇓ Ok (inl (i1, st1)).
  Proof.
    intros Hn Hp Hc Hpu; unfold cbody; eapply conv_bind; [exact Hn|]; cbn.
    rewrite (Hdep _ _ Hp); eapply conv_bind; [apply closes_conv; exact Hc|]; cbn.
    rewrite (Hpush _ _ Hp), Hpu; now_conv.
  Qed.

  Lemma att_steps t : forall k S st st' i l2 iend, depth_ok k t -> closes k S st -> len st = k -> att t st = Ok st' ->
    items P pok i (preorder t ++ l2) iend ->
    exists i1 S1, items P pok i1 l2 iend /\ steps (i, S) (i1, S1) /\ closes k S1 st' /\ len st' = k.
  Proof.
    induction t as [[a x] ts IH] using tree_ind'; intros k S st st' i l2 iend Hd Hc Hl Ha Hi.
    apply depth_ok_node in Hd as [Hd Hds]; rewrite att_node in Ha.
    destruct (push st a (pth x)) as [st1| | |] eqn:Epu; try discriminate; cbn in Ha.
    destruct (att_list ts st1) as [st2| | |] eqn:Ea; try discriminate; cbn in Ha.
    cbn in Hi; inversion Hi as [|? ? ? i1 ? ? Hn Hp Hi1]; subst.
    assert (Hb := body_some _ _ _ _ _ _ _ Hn Hp Hc Epu).
    pose proof (len_push _ _ _ _ Epu) as Hl1.
    assert (Hkids : forall ts', Forall (fun t => forall k S st st' i l2 iend, depth_ok k t -> closes k S st -> len st = k -> att t st = Ok st' ->
              items P pok i (preorder t ++ l2) iend ->
              exists i1 S1, items P pok i1 l2 iend /\ steps (i, S) (i1, S1) /\ closes k S1 st' /\ len st' = k) ts' ->
              forall k S st st' i l2 iend, Forall (depth_ok k) ts' -> closes k S st -> len st = k -> att_list ts' st = Ok st' ->
              items P pok i (flat_map preorder ts' ++ l2) iend ->
              exists i1 S1, items P pok i1 l2 iend /\ steps (i, S) (i1, S1) /\ closes k S1 st' /\ len st' = k).
    { clear; intros ts' IH; induction IH as [|t ts' Ht _ IHl]; intros k S st st' i l2 iend Hd Hc Hl Ha Hi.
      - cbn in Ha, Hi; injection Ha as <-; exists i, S; repeat split; auto; constructor.
      - inversion Hd as [|? ? Hd1 Hd2]; subst.
        cbn in Ha; destruct (att t st) as [st1| | |] eqn:Ea; try discriminate; cbn in Ha.
        cbn in Hi; rewrite <- app_assoc in Hi.
        destruct (Ht _ _ _ _ _ _ _ Hd1 Hc eq_refl Ea Hi) as (i1 & S1 & Hi1 & Hs1 & Hc1 & Hl1).
        destruct (IHl _ _ _ _ _ _ _ Hd2 Hc1 Hl1 Ha Hi1) as (i2 & S2 & Hi2 & Hs2 & Hc2 & Hl2).
        exists i2, S2; repeat split; auto; eapply steps_trans; eassumption. }
    destruct (Hkids ts IH (Datatypes.S (dep x)) st1 st1 st2 i1 l2 iend) as (i2 & S2 & Hi2 & Hs2 & Hc2 & Hl2); auto.
    { apply cl_done; lia. }
    { lia. }
    pose proof (len_top _ _ Ha) as Hl'.
    exists i2, S2; repeat split; [exact Hi2| | |lia].
    - eapply st_step; [exact Hb|exact Hs2].
    - eapply closes_trans; [|exact Hc2|]; [lia|]; eapply cl_step; [|exact Ha|apply cl_done]; lia.
  Qed.

  Lemma att_list_steps ts : forall k S st st' i l2 iend, Forall (depth_ok k) ts -> closes k S st -> len st = k -> att_list ts st = Ok st' ->
    items P pok i (flat_map preorder ts ++ l2) iend ->
    exists i1 S1, items P pok i1 l2 iend /\ steps (i, S) (i1, S1) /\ closes k S1 st' /\ len st' = k.
  Proof.
    induction ts as [|t ts IHl]; intros k S st st' i l2 iend Hd Hc Hl Ha Hi.
    - cbn in Ha, Hi; injection Ha as <-; exists i, S; repeat split; auto; constructor.
    - inversion Hd as [|? ? Hd1 Hd2]; subst.
      cbn in Ha; destruct (att t st) as [st1| | |] eqn:Ea; try discriminate; cbn in Ha.
      cbn in Hi; rewrite <- app_assoc in Hi.
      destruct (att_steps t _ _ _ _ _ _ _ Hd1 Hc eq_refl Ea Hi) as (i1 & S1 & Hi1 & Hs1 & Hc1 & Hl1).
      destruct (IHl _ _ _ _ _ _ _ Hd2 Hc1 Hl1 Ha Hi1) as (i2 & S2 & Hi2 & Hs2 & Hc2 & Hl2).
      exists i2, S2; repeat split; auto; eapply steps_trans; eassumption.
  Qed.

  Lemma consume_none i st0 iend : items P pok i [] iend -> (fun f => loop cbody f (i, st0)) ⇓ Ok (iend, st0).
  Proof.
    intros Hi; inversion Hi as [? ? Hn|]; subst; apply loop_done; unfold cbody.
    eapply conv_bind; [exact Hn|now_conv].
  Qed.

  Lemma consume_tree i st0 a x ts iend st1 st2 : len st0 = 0 -> depth_ok 0 (TNode (a, x) ts) ->
    items P pok i (preorder (TNode (a, x) ts)) iend ->
    push st0 a (pth x) = Ok st1 -> att_list ts st1 = Ok st2 ->
    exists S1, (fun f => loop cbody f (i, st0)) ⇓ Ok (iend, S1) /\ (fun f => close 1 f S1) ⇓ Ok st2.
  Proof.
    intros H0 Hd Hi Hpu Ha; apply depth_ok_node in Hd as [Hd Hds].
    cbn in Hi; inversion Hi as [|? ? ? i1 ? ? Hn Hp Hi1]; subst.
    assert (Hc0 : closes (dep x) st0 st0) by (apply cl_done; lia).
    assert (Hb := body_some i st0 st0 a x i1 st1 Hn Hp Hc0 Hpu).
    pose proof (len_push _ _ _ _ Hpu) as Hl1.
    rewrite <- (app_nil_r (flat_map preorder ts)) in Hi1.
    destruct (att_list_steps ts 1 st1 st1 st2 i1 [] iend) as (i2 & S2 & Hi2 & Hs2 & Hc2 & Hl2); auto; [apply cl_done; lia|lia|].
    exists S2; split; [|apply closes_conv; exact Hc2].
    eapply loop_step; [exact Hb|]; eapply steps_loop; [exact Hs2|]; apply consume_none; exact Hi2.
  Qed.
End Consumer.

(** ** Positions of the nodes of a walked tree *)
Section Below.
  Context {A Nd : Type}.

  Fixpoint below (p : list nat) (t : tree (A * pos Nd)) : Prop :=
    match t with
    | TNode (a, x) ts => pos_path x = p /\
        (fix all l := match l with [] => True | t :: l' => (exists i, below (p ++ [i]) t) /\ all l' end) ts
    end.
  Lemma below_node p a x ts : below p (TNode (a, x) ts) <-> pos_path x = p /\ Forall (fun t => exists i, below (p ++ [i]) t) ts.
  Proof.
    cbn; split; intros [H1 H2]; (split; [exact H1|]).
    - induction ts as [|t ts IH]; constructor; [tauto|apply IH; tauto].
    - induction H2; auto.
  Qed.

  Fixpoint bbelow (p : list nat) (t : btree (A * pos Nd)) : Prop :=
    match t with
    | BNode (a, x) l r => pos_path x = p /\
        match l with Some t => bbelow (p ++ [0]) t | None => True end /\
        match r with Some t => bbelow (p ++ [1]) t | None => True end
    end.

  Lemma bbelow_flat t : forall p, bbelow p t -> below p (flat t).
  Proof.
    induction t as [[a x] l r IHl IHr] using btree_ind'; intros p (H1 & H2 & H3).
    cbn [flat]; apply below_node; split; [exact H1|].
    apply Forall_app; split; [destruct l as [l|]|destruct r as [r|]]; constructor; try constructor; cbn in IHl, IHr.
    - exists 0; apply IHl; exact H2.
    - exists 1; apply IHr; exact H3.
  Qed.

  Context {G : Type} (vis : G -> pos Nd -> G * outcome A).

  Lemma walk_below t : forall p ab g t', snd (walk (with_node vis) g (annotate p ab t)) = Some t' -> below p t'.
  Proof.
    induction t as [v ts IH] using tree_ind'; intros p ab g t'.
    cbn [annotate]; rewrite walk_node.
    replace (with_node vis g (mkPos p ab v)) with (match vis g (mkPos p ab v) with (g', Drop) => (g', Drop) | (g', Keep a down) => (g', Keep (a, mkPos p ab v) down) end) by reflexivity.
    destruct (vis g (mkPos p ab v)) as [g1 [|a [|]]]; [discriminate| |].
    - destruct (walk_list (walk (with_node vis)) g1 (mapi (fun i c => annotate (p ++ [i]) (ab ++ [v]) c) 0 ts)) as [g2 ts'] eqn:E.
      cbn; intros E'; injection E' as <-; apply below_node; split; [reflexivity|].
      revert g1 g2 ts' E; generalize 0 as i; clear g.
      induction IH as [|t ts Ht _ IHl]; intros i g1 g2 ts' E.
      + cbn in E; rewrite walk_list_nil in E; injection E as _ <-; constructor.
      + rewrite mapi_cons, walk_list_cons in E.
        destruct (walk (with_node vis) g1 (annotate (p ++ [i]) (ab ++ [v]) t)) as [g3 o] eqn:Et.
        destruct (walk_list (walk (with_node vis)) g3 (mapi (fun i c => annotate (p ++ [i]) (ab ++ [v]) c) (S i) ts)) as [g4 os] eqn:El.
        injection E as _ <-; apply Forall_app; split.
        * destruct o as [t'|]; constructor; [|constructor].
          exists i; eapply (Ht _ _ g1); rewrite Et; reflexivity.
        * eapply IHl; exact El.
    - cbn; intros E'; injection E' as <-; cbn; auto.
  Qed.

  Lemma bwalk_node {X B} (visit : G -> X -> G * outcome B) g x l r :
    bwalk visit g (BNode x l r) =
    match visit g x with
    | (g1, Drop) => (g1, None)
    | (g1, Keep b false) => (g1, Some (BNode b None None))
    | (g1, Keep b true) =>
        let '(g2, l') := walk_side (bwalk visit) g1 l in
        let '(g3, r') := walk_side (bwalk visit) g2 r in (g3, Some (BNode b l' r'))
    end.
  Proof. reflexivity. Qed.

  Lemma bwalk_below t : forall p ab g t', snd (bwalk (with_node vis) g (bannotate p ab t)) = Some t' -> bbelow p t'.
  Proof.
    induction t as [v l r IHl IHr] using btree_ind'; intros p ab g t'.
    cbn [bannotate]; rewrite bwalk_node.
    replace (with_node vis g (mkPos p ab v)) with (match vis g (mkPos p ab v) with (g', Drop) => (g', Drop) | (g', Keep a down) => (g', Keep (a, mkPos p ab v) down) end) by reflexivity.
    destruct (vis g (mkPos p ab v)) as [g1 [|a [|]]]; [discriminate| |].
    - destruct (walk_side (bwalk (with_node vis)) g1 (option_map (bannotate (p ++ [0]) (ab ++ [v])) l)) as [g2 l'] eqn:El.
      destruct (walk_side (bwalk (with_node vis)) g2 (option_map (bannotate (p ++ [1]) (ab ++ [v])) r)) as [g3 r'] eqn:Er.
      cbn; intros E'; injection E' as <-; split; [reflexivity|]; split.
      + destruct l as [l|]; cbn in El; [|injection El as <- <-; exact I].
        destruct l' as [l'|]; [|exact I]; cbn in IHl; eapply (IHl _ _ g1); rewrite El; reflexivity.
      + destruct r as [r|]; cbn in Er; [|injection Er as <- <-; exact I].
        destruct r' as [r'|]; [|exact I]; cbn in IHr; eapply (IHr _ _ g2); rewrite Er; reflexivity.
    - cbn; intros E'; injection E' as <-; cbn; auto.
  Qed.
End Below.

Lemma walk_flat {G X B} (vis : G -> X -> G * outcome B) t : forall g,
  walk vis g (flat t) = let '(g1, o) := bwalk vis g t in (g1, option_map flat o).
Proof.
  induction t as [x l r IHl IHr] using btree_ind'; intros g.
  cbn [flat]; rewrite walk_node, bwalk_node.
  destruct (vis g x) as [g1 [|a [|]]]; try reflexivity.
  rewrite walk_list_app.
  destruct l as [l|], r as [r|]; cbn in IHl, IHr; cbn [walk_side]; rewrite ?walk_list_cons, ?IHl, ?walk_list_nil.
  - destruct (bwalk vis g1 l) as [g2 l']; rewrite walk_list_nil, walk_list_cons, IHr.
    destruct (bwalk vis g2 r) as [g3 r']; rewrite walk_list_nil; destruct l', r'; reflexivity.
  - destruct (bwalk vis g1 l) as [g2 l']; rewrite !walk_list_nil; destruct l'; reflexivity.
  - cbn beta iota; rewrite walk_list_cons, IHr; destruct (bwalk vis g1 r) as [g2 r']; rewrite !walk_list_nil; destruct r'; reflexivity.
  - reflexivity.
Qed.
