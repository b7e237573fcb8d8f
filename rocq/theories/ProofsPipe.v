(** * ProofsPipe: collect_tree, fold_tree and fold_path at the end of a pipeline. *)
From Verif Require Import Prelim PrelimFacts Spec SpecFacts SpecPipe ModelNode NodeFacts ModelPre ModelPipe ProofsPlain Slots
  PipeCore PipeBase PipeChain PipeEnd.

Lemma below_depth {A Nd} (t : tree (A * pos Nd)) : forall p, below p t -> depth_ok (fun x => length (pos_path x)) (length p) t.
Proof.
  induction t as [[a x] ts IH] using tree_ind'; intros p H; apply below_node in H as [H1 H2].
  apply depth_ok_node; split; [rewrite H1; reflexivity|].
  rewrite Forall_forall in *; intros t Ht; destruct (H2 t Ht) as (i & Hi).
  specialize (IH t Ht _ Hi); rewrite app_length, Nat.add_1_r in IH; exact IH.
Qed.

Definition xpath {Nd} (x : pos Nd) : list N := map wrap (pos_path x).

Lemma wrap_0 : wrap 0 = 0%N. Proof. reflexivity. Qed.
Lemma wrap_1 : wrap 1 = 1%N. Proof. reflexivity. Qed.

Section Ends.
  Context {A Nd : Type} (P : pipe A) (pok : list N -> pos Nd -> Prop).
  Hypothesis Hdep : forall p x, pok p x -> length p = length (pos_path x).
  Notation item := (A * pos Nd)%type.

  (** *** collect_tree, n-ary *)
  Lemma collect_att (t : tree item) : forall v cs rest,
    att (@attach_top A) (fun st a _ => Ok (TNode a [] :: st)) xpath t (TNode v cs :: rest) = Ok (TNode v (cs ++ [tree_map fst t]) :: rest).
  Proof.
    induction t as [[a x] ts IH] using tree_ind'; intros v cs rest; rewrite att_node; cbn [bindR].
    assert (Hts : forall cs0 rest0, att_list (@attach_top A) (fun st a _ => Ok (TNode a [] :: st)) xpath ts (TNode a cs0 :: rest0) =
              Ok (TNode a (cs0 ++ map (tree_map fst) ts) :: rest0)).
    { induction IH as [|t ts Ht _ IHl]; intros cs0 rest0; cbn [att_list map]; [rewrite app_nil_r; reflexivity|].
      rewrite Ht; cbn [bindR]; rewrite IHl, <- app_assoc; reflexivity. }
    rewrite Hts; reflexivity.
  Qed.

  Lemma collect_att_list (ts : list (tree item)) : forall v cs rest,
    att_list (@attach_top A) (fun st a _ => Ok (TNode a [] :: st)) xpath ts (TNode v cs :: rest) =
    Ok (TNode v (cs ++ map (tree_map fst) ts) :: rest).
  Proof.
    induction ts as [|t ts IH]; intros v cs rest; cbn [att_list map]; [rewrite app_nil_r; reflexivity|].
    rewrite collect_att; cbn [bindR]; rewrite IH, <- app_assoc; reflexivity.
  Qed.

  Lemma collect_ok o iend : match o with Some t => below [] t | None => True end ->
    items P pok (p_init P) (flat_map preorder (opt_list o)) iend ->
    collect_tree P ⇓ Ok (option_map (tree_map fst) o, iend).
  Proof.
    intros Hb Hi; unfold collect_tree; destruct o as [[[a x] ts]|]; cbn [opt_list flat_map app] in Hi.
    - rewrite app_nil_r in Hi; apply below_depth in Hb; cbn [length] in Hb.
      destruct (consume_tree P pok (@length (tree A)) (@attach_top A) (fun st a _ => Ok (TNode a [] :: st)) xpath
                  (fun x => length (pos_path x)) ltac:(reflexivity) Hdep) with (5 := Hi) (st0 := @nil (tree A)) (st1 := [TNode a []])
                  (st2 := [TNode a (map (tree_map fst) ts)])
        as (S1 & Hl & Hc); auto.
      + intros st b p st' E; injection E as <-; reflexivity.
      + intros [|p [|[v cs] rest]] st' E; try discriminate; injection E as <-; reflexivity.
      + rewrite collect_att_list; reflexivity.
      + eapply conv_bind; [exact Hl|]; cbn beta iota; eapply conv_bind; [exact Hc|]; now_conv.
    - eapply conv_bind; [apply (consume_none P pok (@length (tree A)) (@attach_top A) (fun st a _ => Ok (TNode a [] :: st)) _ _ _ Hi)|]; cbn beta iota.
      eapply conv_bind; [apply (closes_conv (@length (tree A)) (@attach_top A) 1), cl_done; cbn; lia|]; now_conv.
  Qed.

  (** *** fold_tree, n-ary *)
  Section Fold.
    Context {G O : Type} (f : G -> list O -> A -> G * O).
    Notation f' := (fun (g : G) (os : list O) (ax : item) => f g os (fst ax)).
    Definition fold_push (st : @fold_st A G O) (a : A) (_ : list N) : Res (@fold_st A G O) :=
      let '(g, values, folded) := st in Ok (g, a :: values, [] :: folded).

    Lemma fold_list_cons {X} (fold : G -> tree X -> G * O) g t ts :
      fold_list fold g (t :: ts) = let '(g1, o) := fold g t in let '(g2, os) := fold_list fold g1 ts in (g2, o :: os).
    Proof. reflexivity. Qed.

    Lemma fold_att (t : tree item) : forall g values last rest,
      att (fold_top f) fold_push xpath t (g, values, last :: rest) =
      Ok (fst (fold_up f' g t), values, (last ++ [snd (fold_up f' g t)]) :: rest).
    Proof.
      induction t as [[a x] ts IH] using tree_ind'; intros g values last rest; rewrite att_node; cbn [bindR fold_push].
      assert (Hts : forall g values last rest, att_list (fold_top f) fold_push xpath ts (g, values, last :: rest) =
                Ok (fst (fold_list (fold_up f') g ts), values, (last ++ snd (fold_list (fold_up f') g ts)) :: rest)).
      { induction IH as [|t ts Ht _ IHl]; intros g0 v0 l0 r0; cbn [att_list]; [cbn; rewrite app_nil_r; reflexivity|].
        rewrite Ht; cbn [bindR]; rewrite IHl, fold_list_cons.
        destruct (fold_up f' g0 t) as [g1 o]; cbn; destruct (fold_list (fold_up f') g1 ts) as [g2 os]; cbn.
        rewrite <- app_assoc; reflexivity. }
      rewrite Hts; cbn; fold (fold_list (fold_up f')); destruct (fold_list (fold_up f') g ts) as [g1 os]; cbn.
      destruct (f g1 os a); reflexivity.
    Qed.

    Lemma fold_att_list (ts : list (tree item)) : forall g values last rest,
      att_list (fold_top f) fold_push xpath ts (g, values, last :: rest) =
      Ok (fst (fold_list (fold_up f') g ts), values, (last ++ snd (fold_list (fold_up f') g ts)) :: rest).
    Proof.
      induction ts as [|t ts IH]; intros g0 v0 l0 r0; cbn [att_list]; [cbn; rewrite app_nil_r; reflexivity|].
      rewrite fold_att; cbn [bindR]; rewrite IH, fold_list_cons.
      destruct (fold_up f' g0 t) as [g1 o]; cbn; destruct (fold_list (fold_up f') g1 ts) as [g2 os]; cbn.
      rewrite <- app_assoc; reflexivity.
    Qed.

    Lemma fold_len_push st a p st' : fold_push st a p = Ok st' -> length (snd st') = S (length (snd st)).
    Proof. destruct st as [[g v] fo]; cbn; intros E; injection E as <-; reflexivity. Qed.
    Lemma fold_len_top st st' : fold_top f st = Ok st' -> length (snd st) = S (length (snd st')).
    Proof.
      destruct st as [[g [|v vs]] [|i [|l fo]]]; cbn; intros E; try discriminate.
      - destruct (f g i v); discriminate.
      - destruct (f g i v); injection E as <-; reflexivity.
    Qed.
    Lemma fold_body_eq fu s : fold_body P f fu s = cbody P (fun st : @fold_st A G O => length (snd st)) (fold_top f) fold_push fu s.
    Proof.
      destruct s as [i st]; unfold fold_body, cbody; destruct (p_next P fu i) as [[[a|] i1]| | |]; cbn; try reflexivity.
      change (fold_to f (length (p_path P i1)) fu st) with (close (fun st : @fold_st A G O => length (snd st)) (fold_top f) (length (p_path P i1)) fu st);
      destruct (close (fun st : @fold_st A G O => length (snd st)) (fold_top f) (length (p_path P i1)) fu st) as [[[g v] fo]| | |]; reflexivity.
    Qed.

    Lemma fold_tree_ok o g iend : match o with Some t => below [] t | None => True end ->
      items P pok (p_init P) (flat_map preorder (opt_list o)) iend ->
      fold_tree P f g ⇓ Ok (option_map (fun t => snd (fold_up f' g t)) o,
                            match o with Some t => fst (fold_up f' g t) | None => g end, iend).
    Proof.
      intros Hb Hi; unfold fold_tree; destruct o as [[[a x] ts]|]; cbn [opt_list flat_map app] in Hi.
      - rewrite app_nil_r in Hi; apply below_depth in Hb; cbn [length] in Hb.
        destruct (consume_tree P pok (fun st => length (snd st)) (fold_top f) fold_push xpath
                    (fun x => length (pos_path x)) ltac:(reflexivity) Hdep fold_len_push fold_len_top
                    (p_init P) (g, [], []) a x ts iend (g, [a], [[]])
                    (fst (fold_list (fold_up f') g ts), [a], [snd (fold_list (fold_up f') g ts)]))
          as (S1 & Hl & Hc); auto.
        + rewrite fold_att_list; reflexivity.
        + eapply conv_bind; [eapply conv_ext; [intros fu; apply loop_ext, fold_body_eq|exact Hl]|]; cbn beta iota.
          eapply conv_bind; [exact Hc|]; cbn [hd fold_up option_map].
          destruct (fold_list (fold_up f') g ts) as [g1 os]; cbn; destruct (f g1 os a); now_conv.
      - eapply conv_bind; [eapply conv_ext; [intros fu; apply loop_ext, fold_body_eq|eapply consume_none; exact Hi]|]; cbn beta iota.
        eapply conv_bind; [apply (closes_conv (fun st : @fold_st A G O => length (snd st)) (fold_top f) 1), cl_done; cbn; lia|]; now_conv.
    Qed.
  End Fold.

  (** From here on the reported paths must be the true ones. *)
  Hypothesis Hpath : forall p x, pok p x -> p = xpath x.

  (** *** fold_path, n-ary *)
  Section FoldPath.
    Context {G O : Type} (f : G -> list O -> list N -> A -> G * O).
    Notation f' := (fun (g : G) (os : list O) (ax : item) => f g os (xpath (snd ax)) (fst ax)).
    Notation pst := (@foldp_st A G (list O)).
    Definition foldp_push (st : pst) (a : A) (path : list N) : Res pst :=
      let '(g, values, folded, paths) := st in
      paths <- (if length paths <? length path then seg <- unwrap (hd_error (rev path)) ;; Ok (seg :: paths) else Ok paths) ;;
      Ok (g, a :: values, [] :: folded, paths).

    Lemma push_path p i : (if length (rev (map wrap p)) <? length (map wrap (p ++ [i])) then
        seg <- unwrap (hd_error (rev (map wrap (p ++ [i])))) ;; Ok (seg :: rev (map wrap p)) else Ok (rev (map wrap p)))
      = Ok (rev (map wrap (p ++ [i]))).
    Proof.
      rewrite rev_length, !map_length, app_length; cbn [length].
      rewrite (proj2 (Nat.ltb_lt _ _)) by lia.
      rewrite map_app, rev_app_distr; reflexivity.
    Qed.

    Lemma foldp_att (t : tree item) : forall p i g values last rest, below (p ++ [i]) t ->
      att (foldp_top f) foldp_push xpath t (g, values, last :: rest, rev (map wrap p)) =
      Ok (fst (fold_up f' g t), values, (last ++ [snd (fold_up f' g t)]) :: rest, rev (map wrap p)).
    Proof.
      induction t as [[a x] ts IH] using tree_ind'; intros p i g values last rest Hb.
      apply below_node in Hb as [Hx Hb].
      rewrite att_node; cbn [foldp_push]; unfold xpath at 1 2; rewrite Hx, push_path; cbn [bindR].
      assert (Hts : forall g values last rest, att_list (foldp_top f) foldp_push xpath ts (g, values, last :: rest, rev (map wrap (p ++ [i]))) =
                Ok (fst (fold_list (fold_up f') g ts), values, (last ++ snd (fold_list (fold_up f') g ts)) :: rest, rev (map wrap (p ++ [i])))).
      { clear g values last rest; induction IH as [|t ts Ht _ IHl]; intros g0 v0 l0 r0; cbn [att_list]; [cbn; rewrite app_nil_r; reflexivity|].
        inversion Hb as [|? ? (j & Hj) Hb']; subst.
        rewrite (Ht _ j) by exact Hj; cbn [bindR]; rewrite IHl, fold_list_cons by exact Hb'.
        destruct (fold_up f' g0 t) as [g1 o]; cbn; destruct (fold_list (fold_up f') g1 ts) as [g2 os]; cbn.
        rewrite <- app_assoc; reflexivity. }
      rewrite Hts; cbn [bindR foldp_top app fold_up]; destruct (fold_list (fold_up f') g ts) as [g1 os]; cbn [fst snd].
      rewrite rev_involutive; unfold xpath; cbn; rewrite Hx; destruct (f g1 os (map wrap (p ++ [i])) a).
      rewrite map_app, rev_app_distr; reflexivity.
    Qed.

    Lemma foldp_att_list (ts : list (tree item)) p : Forall (fun t => exists i, below (p ++ [i]) t) ts ->
      forall g values last rest,
      att_list (foldp_top f) foldp_push xpath ts (g, values, last :: rest, rev (map wrap p)) =
      Ok (fst (fold_list (fold_up f') g ts), values, (last ++ snd (fold_list (fold_up f') g ts)) :: rest, rev (map wrap p)).
    Proof.
      induction 1 as [|t ts (i & Hi) _ IH]; intros g0 v0 l0 r0; cbn [att_list]; [cbn; rewrite app_nil_r; reflexivity|].
      rewrite (foldp_att t p i) by exact Hi; cbn [bindR]; rewrite IH, fold_list_cons.
      destruct (fold_up f' g0 t) as [g1 o]; cbn; destruct (fold_list (fold_up f') g1 ts) as [g2 os]; cbn.
      rewrite <- app_assoc; reflexivity.
    Qed.

    Lemma foldp_len_push st a p st' : foldp_push st a p = Ok st' -> length (snd (fst st')) = S (length (snd (fst st))).
    Proof.
      destruct st as [[[g v] fo] pa]; cbn [foldp_push].
      match goal with |- context [if ?b then ?x else ?y] => destruct (if b then x else y) end; intros E; try discriminate; injection E as <-; reflexivity.
    Qed.
    Lemma foldp_len_top st st' : foldp_top f st = Ok st' -> length (snd (fst st)) = S (length (snd (fst st'))).
    Proof.
      destruct st as [[[g [|v vs]] [|i [|l fo]]] pa]; cbn; intros E; try discriminate.
      - destruct (f g i (rev pa) v); discriminate.
      - destruct (f g i (rev pa) v); injection E as <-; reflexivity.
    Qed.
    Lemma foldp_body_eq fu s : foldp_body P f fu s = cbody P (fun st : pst => length (snd (fst st))) (foldp_top f) foldp_push fu s.
    Proof.
      destruct s as [i st]; unfold foldp_body, cbody; destruct (p_next P fu i) as [[[a|] i1]| | |]; cbn [bindR]; try reflexivity.
      change (foldp_to f (length (p_path P i1)) fu st) with (close (fun st : pst => length (snd (fst st))) (foldp_top f) (length (p_path P i1)) fu st);
      destruct (close (fun st : pst => length (snd (fst st))) (foldp_top f) (length (p_path P i1)) fu st) as [[[[g v] fo] pa]| | |]; cbn [bindR foldp_push]; try reflexivity.
      match goal with |- context [if ?b then ?x else ?y] => destruct (if b then x else y) end; reflexivity.
    Qed.

    Lemma fold_path_ok o g iend : match o with Some t => below [] t | None => True end ->
      items P pok (p_init P) (flat_map preorder (opt_list o)) iend ->
      fold_path P f g ⇓ Ok (option_map (fun t => snd (fold_up f' g t)) o,
                            match o with Some t => fst (fold_up f' g t) | None => g end, iend).
    Proof.
      intros Hb Hi; unfold fold_path; destruct o as [[[a x] ts]|]; cbn [opt_list flat_map app] in Hi.
      - rewrite app_nil_r in Hi; pose proof (below_depth _ _ Hb) as Hd; cbn [length] in Hd.
        apply below_node in Hb as [Hx Hb].
        destruct (consume_tree P pok (fun st : pst => length (snd (fst st))) (foldp_top f) foldp_push xpath
                    (fun x => length (pos_path x))) with (i := p_init P) (st0 := (g, @nil A, @nil (list O), @nil N)) (a := a) (x := x) (ts := ts) (iend := iend)
                    (st1 := (g, [a], [@nil O], @nil N))
                    (st2 := (fst (fold_list (fold_up f') g ts), [a], [snd (fold_list (fold_up f') g ts)], @nil N))
          as (S1 & Hl & Hc); auto.
        + intros p y Hp st b; rewrite (Hpath _ _ Hp); reflexivity.
        + apply foldp_len_push.
        + apply foldp_len_top.
        + unfold xpath; rewrite Hx; reflexivity.
        + change (@nil N) with (rev (map wrap [])); rewrite (foldp_att_list ts [] Hb); reflexivity.
        + eapply conv_bind; [eapply conv_ext; [intros fu; apply loop_ext, foldp_body_eq|exact Hl]|]; cbn beta iota.
          eapply conv_bind; [exact Hc|]; cbn [hd fold_up option_map].
          destruct (fold_list (fold_up f') g ts) as [g1 os]; unfold xpath; cbn; rewrite Hx; cbn; destruct (f g1 os [] a); now_conv.
      - eapply conv_bind; [eapply conv_ext; [intros fu; apply loop_ext, foldp_body_eq|eapply consume_none; exact Hi]|]; cbn beta iota.
        eapply conv_bind; [apply (closes_conv (fun st : pst => length (snd (fst st))) (foldp_top f) 1), cl_done; cbn; lia|]; now_conv.
    Qed.
  End FoldPath.

  (** *** collect_tree, binary *)
  Definition bpush (st : list (N * btree A)) (a : A) (path : list N) : Res (list (N * btree A)) :=
    Ok ((last path 0%N, BNode a None None) :: st).

  Lemma last_seg p i : last (map wrap (p ++ [i])) 0%N = wrap i.
  Proof. rewrite map_app; apply last_last. Qed.

  Lemma bcollect_att (t : btree item) : forall p i s v l r rest, bbelow (p ++ [i]) t ->
    att (@battach_top A) bpush xpath (flat t) ((s, BNode v l r) :: rest) =
    (t' <- set_child (wrap i) (BNode v l r) (btree_map fst t) ;; Ok ((s, t') :: rest)).
  Proof.
    induction t as [[a x] tl tr IHl IHr] using btree_ind'; intros p i s v l r rest (Hx & Hl & Hr).
    cbn [flat]; rewrite att_node; unfold bpush at 1, xpath at 1; rewrite Hx, last_seg; cbn [bindR].
    assert (Hk : att_list (@battach_top A) bpush xpath
       (match tl with Some x => [flat x] | None => [] end ++ match tr with Some x => [flat x] | None => [] end)
       ((wrap i, BNode a None None) :: (s, BNode v l r) :: rest) =
       Ok ((wrap i, BNode a (option_map (btree_map fst) tl) (option_map (btree_map fst) tr)) :: (s, BNode v l r) :: rest)).
    { destruct tl as [tl|], tr as [tr|]; cbn [app att_list]; cbn in IHl, IHr.
      - rewrite (IHl _ 0) by exact Hl; rewrite wrap_0; cbn [set_child N.eqb bindR]; rewrite (IHr _ 1) by exact Hr; rewrite wrap_1; reflexivity.
      - rewrite (IHl _ 0) by exact Hl; rewrite wrap_0; reflexivity.
      - rewrite (IHr _ 1) by exact Hr; rewrite wrap_1; reflexivity.
      - reflexivity. }
    rewrite Hk; reflexivity.
  Qed.

  Lemma bcollect_ok o iend : match o with Some t => bbelow [] t | None => True end ->
    items P pok (p_init P) (flat_map preorder (opt_list (option_map flat o))) iend ->
    bcollect_tree P ⇓ Ok (option_map (btree_map fst) o, iend).
  Proof.
    intros Hb Hi; unfold bcollect_tree; destruct o as [[[a x] tl tr]|]; cbn [opt_list option_map flat_map app] in Hi.
    - rewrite app_nil_r in Hi; pose proof (below_depth _ _ (bbelow_flat _ _ Hb)) as Hd; cbn [length] in Hd.
      destruct Hb as (Hx & Hl & Hr).
      destruct (consume_tree P pok (@length (N * btree A)) (@battach_top A) bpush xpath
                  (fun x => length (pos_path x))) with (6 := Hd) (7 := Hi) (st0 := @nil (N * btree A)) (st1 := [(0%N, BNode a None None)])
                  (st2 := [(0%N, BNode a (option_map (btree_map fst) tl) (option_map (btree_map fst) tr))])
        as (S1 & Hlo & Hc); auto.
      + intros p y Hp st b; rewrite (Hpath _ _ Hp); reflexivity.
      + intros st b p st' E; injection E as <-; reflexivity.
      + intros [|[s p] [|[s' [v cl cr]] rest]] st' E; try discriminate; cbn in E.
        destruct (s =? 0)%N; [injection E as <-; reflexivity|]; destruct (s =? 1)%N; [injection E as <-; reflexivity|discriminate].
      + unfold bpush, xpath; rewrite Hx; reflexivity.
      + destruct tl as [tl|], tr as [tr|]; cbn [app att_list].
        * rewrite (bcollect_att tl [] 0) by exact Hl; rewrite wrap_0; cbn [set_child N.eqb bindR]; rewrite (bcollect_att tr [] 1) by exact Hr; rewrite wrap_1; reflexivity.
        * rewrite (bcollect_att tl [] 0) by exact Hl; rewrite wrap_0; reflexivity.
        * rewrite (bcollect_att tr [] 1) by exact Hr; rewrite wrap_1; reflexivity.
        * reflexivity.
      + eapply conv_bind; [exact Hlo|]; cbn beta iota; eapply conv_bind; [exact Hc|]; now_conv.
    - eapply conv_bind; [apply (consume_none P pok (@length (N * btree A)) (@battach_top A) bpush _ _ _ Hi)|]; cbn beta iota.
      eapply conv_bind; [apply (closes_conv (@length (N * btree A)) (@battach_top A) 1), cl_done; cbn; lia|]; now_conv.
  Qed.

  (** *** fold_path, binary *)
  Section BFoldPath.
    Context {G O : Type} (f : G -> option O * option O -> list N -> A -> G * O).
    Notation f' := (fun (g : G) (os : option O * option O) (ax : item) => f g os (xpath (snd ax)) (fst ax)).
    Notation bst := (@foldp_st A G (option O * option O)).
    Definition bfoldp_push (st : bst) (a : A) (path : list N) : Res bst :=
      let '(g, values, folded, paths) := st in
      paths <- (if length paths <? length path then seg <- unwrap (hd_error (rev path)) ;; Ok (seg :: paths) else Ok paths) ;;
      Ok (g, a :: values, (None, None) :: folded, paths).

    Lemma bfold_up_node {X} (F : G -> option O * option O -> X -> G * O) g x l r :
      bfold_up F g (BNode x l r) =
      let '(g1, a) := fold_side (bfold_up F) g l in let '(g2, b) := fold_side (bfold_up F) g1 r in F g2 (a, b) x.
    Proof. reflexivity. Qed.

    Lemma bfoldp_att (t : btree item) : forall p i g values last rest, bbelow (p ++ [i]) t ->
      att (bfoldp_top f) bfoldp_push xpath (flat t) (g, values, last :: rest, rev (map wrap p)) =
      (last' <- set_slot (wrap i) last (snd (bfold_up f' g t)) ;;
       Ok (fst (bfold_up f' g t), values, last' :: rest, rev (map wrap p))).
    Proof.
      induction t as [[a x] tl tr IHl IHr] using btree_ind'; intros p i g values last rest (Hx & Hl & Hr).
      cbn [flat]; rewrite att_node; cbn [bfoldp_push]; unfold xpath at 1 2; rewrite Hx, push_path; cbn [bindR].
      assert (Hk : att_list (bfoldp_top f) bfoldp_push xpath
         (match tl with Some x => [flat x] | None => [] end ++ match tr with Some x => [flat x] | None => [] end)
         (g, a :: values, (None, None) :: last :: rest, rev (map wrap (p ++ [i]))) =
         let '(g1, ol) := fold_side (bfold_up f') g tl in
         let '(g2, or) := fold_side (bfold_up f') g1 tr in
         Ok (g2, a :: values, (ol, or) :: last :: rest, rev (map wrap (p ++ [i])))).
      { destruct tl as [tl|], tr as [tr|]; cbn [app att_list fold_side]; cbn in IHl, IHr.
        - rewrite (IHl _ 0) by exact Hl; rewrite wrap_0; cbn [set_slot N.eqb bindR fst snd].
          destruct (bfold_up f' g tl) as [g1 ol]; cbn [fst snd].
          rewrite (IHr _ 1) by exact Hr; rewrite wrap_1; cbn [set_slot N.eqb Pos.eqb bindR fst snd].
          destruct (bfold_up f' g1 tr); reflexivity.
        - rewrite (IHl _ 0) by exact Hl; rewrite wrap_0; cbn [set_slot N.eqb bindR fst snd].
          destruct (bfold_up f' g tl) as [g1 ol]; reflexivity.
        - rewrite (IHr _ 1) by exact Hr; rewrite wrap_1; cbn [set_slot N.eqb Pos.eqb bindR fst snd].
          destruct (bfold_up f' g tr); reflexivity.
        - reflexivity. }
      rewrite Hk, bfold_up_node.
      destruct (fold_side (bfold_up f') g tl) as [g1 ol], (fold_side (bfold_up f') g1 tr) as [g2 or]; cbn [bindR bfoldp_top].
      rewrite rev_involutive; cbn [fst snd]; unfold xpath; rewrite Hx; destruct (f g2 (ol, or) (map wrap (p ++ [i])) a) as [g3 res].
      rewrite map_app, rev_app_distr; cbn; reflexivity.
    Qed.

    Lemma bfoldp_len_push st a p st' : bfoldp_push st a p = Ok st' -> length (snd (fst st')) = S (length (snd (fst st))).
    Proof.
      destruct st as [[[g v] fo] pa]; cbn [bfoldp_push].
      match goal with |- context [if ?b then ?x else ?y] => destruct (if b then x else y) end; intros E; try discriminate; injection E as <-; reflexivity.
    Qed.
    Lemma bfoldp_len_top st st' : bfoldp_top f st = Ok st' -> length (snd (fst st)) = S (length (snd (fst st'))).
    Proof.
      destruct st as [[[g [|v vs]] [|i [|l fo]]] [|seg pa]]; cbn; intros E; try discriminate;
        repeat (match type of E with context [let (_, _) := f ?a ?b ?c ?d in _] => destruct (f a b c d) end); try discriminate.
      destruct (set_slot seg l o); try discriminate; injection E as <-; reflexivity.
    Qed.
    Lemma bfoldp_body_eq fu s : bfoldp_body P f fu s = cbody P (fun st : bst => length (snd (fst st))) (bfoldp_top f) bfoldp_push fu s.
    Proof.
      destruct s as [i st]; unfold bfoldp_body, cbody; destruct (p_next P fu i) as [[[a|] i1]| | |]; cbn [bindR]; try reflexivity.
      change (bfoldp_to f (length (p_path P i1)) fu st) with (close (fun st : bst => length (snd (fst st))) (bfoldp_top f) (length (p_path P i1)) fu st);
      destruct (close (fun st : bst => length (snd (fst st))) (bfoldp_top f) (length (p_path P i1)) fu st) as [[[[g v] fo] pa]| | |]; cbn [bindR bfoldp_push]; try reflexivity.
      match goal with |- context [if ?b then ?x else ?y] => destruct (if b then x else y) end; reflexivity.
    Qed.

    Lemma bfold_path_ok o g iend : match o with Some t => bbelow [] t | None => True end ->
      items P pok (p_init P) (flat_map preorder (opt_list (option_map flat o))) iend ->
      bfold_path P f g ⇓ Ok (option_map (fun t => snd (bfold_up f' g t)) o,
                             match o with Some t => fst (bfold_up f' g t) | None => g end, iend).
    Proof.
      intros Hb Hi; unfold bfold_path; destruct o as [[[a x] tl tr]|]; cbn [opt_list option_map flat_map app] in Hi.
      - rewrite app_nil_r in Hi; pose proof (below_depth _ _ (bbelow_flat _ _ Hb)) as Hd; cbn [length] in Hd.
        destruct Hb as (Hx & Hl & Hr).
        set (res := let '(g1, ol) := fold_side (bfold_up f') g tl in let '(g2, or) := fold_side (bfold_up f') g1 tr in (g2, (ol, or))).
        destruct (consume_tree P pok (fun st : bst => length (snd (fst st))) (bfoldp_top f) bfoldp_push xpath
                    (fun x => length (pos_path x))) with (6 := Hd) (7 := Hi) (st0 := (g, @nil A, @nil (option O * option O), @nil N))
                    (st1 := (g, [a], [(@None O, @None O)], @nil N))
                    (st2 := (fst res, [a], [snd res], @nil N))
          as (S1 & Hlo & Hc); auto.
        + intros p y Hp st b; rewrite (Hpath _ _ Hp); reflexivity.
        + apply bfoldp_len_push.
        + apply bfoldp_len_top.
        + unfold xpath; rewrite Hx; reflexivity.
        + subst res; change (@nil N) with (rev (map wrap [])).
          destruct tl as [tl|], tr as [tr|]; cbn [app att_list fold_side].
          * rewrite (bfoldp_att tl [] 0) by exact Hl; rewrite wrap_0; cbn [set_slot N.eqb bindR fst snd].
            destruct (bfold_up f' g tl) as [g1 ol]; cbn [fst snd].
            rewrite (bfoldp_att tr [] 1) by exact Hr; rewrite wrap_1; cbn [set_slot N.eqb Pos.eqb bindR fst snd].
            destruct (bfold_up f' g1 tr); reflexivity.
          * rewrite (bfoldp_att tl [] 0) by exact Hl; rewrite wrap_0; cbn [set_slot N.eqb bindR fst snd].
            destruct (bfold_up f' g tl) as [g1 ol]; reflexivity.
          * rewrite (bfoldp_att tr [] 1) by exact Hr; rewrite wrap_1; cbn [set_slot N.eqb Pos.eqb bindR fst snd].
            destruct (bfold_up f' g tr); reflexivity.
          * reflexivity.
        + eapply conv_bind; [eapply conv_ext; [intros fu; apply loop_ext, bfoldp_body_eq|exact Hlo]|]; cbn beta iota.
          eapply conv_bind; [exact Hc|]; subst res; cbn [hd option_map]; rewrite bfold_up_node.
          destruct (fold_side (bfold_up f') g tl) as [g1 ol], (fold_side (bfold_up f') g1 tr) as [g2 or].
          unfold xpath; cbn; rewrite Hx; cbn; destruct (f g2 (ol, or) [] a); now_conv.
      - eapply conv_bind; [eapply conv_ext; [intros fu; apply loop_ext, bfoldp_body_eq|eapply consume_none; exact Hi]|]; cbn beta iota.
        eapply conv_bind; [apply (closes_conv (fun st : bst => length (snd (fst st))) (bfoldp_top f) 1), cl_done; cbn; lia|]; now_conv.
    Qed.
  End BFoldPath.
End Ends.
