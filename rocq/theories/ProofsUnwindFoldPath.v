(** * ProofsUnwindFoldPath: folds with paths over a collection when user code in the pipeline panics.  No specification, no property theorems. *)
From Verif Require Import Prelim PrelimFacts Spec SpecFacts ModelNode ModelUnwind SpecUnwind SpecPipe SpecUnwindPipe SpecUnwindTrees ModelPipe ModelPipeColl ModelUnwindPipe
  ModelUnwindTrees PipeCore PipeEnd ProofsPipeColl.
From Verif Require Import ProofsUnwindTrees.

(** ** A consumer whose stack stands for trees with the last segments of their paths *)
Section Labelled.
  Context {A Nd G O St : Type}.
  Variable P : pipe (result A).
  Variables (start : G -> St) (must : St -> list N -> Res bool) (dr : St -> option G) (close : St -> Res (St + result O * G))
    (push : St -> A -> list N -> Res St) (closure : St -> G).
  Variables (enc : G -> list (tree (nat * A)) -> St) (ok : list (tree (nat * A)) -> Prop) (out : tree (nat * A) -> O) (pk : list N -> pos Nd -> Prop).
  Notation cbody := (uclose_body must close).
  Notation dbody := (udrain_body dr close).
  Hypothesis Hstart : forall g, start g = enc g [].
  Hypothesis Hmust : forall g ts p d, length p = S d -> must (enc g ts) p = Ok (S d <=? length ts).
  Hypothesis Hclose : forall g popped v cs rest, ok (popped :: TNode v cs :: rest) ->
    (exists g', close (enc g (popped :: TNode v cs :: rest)) = Ok (inl (enc g' (TNode v (cs ++ [popped]) :: rest)))) /\ ok (TNode v (cs ++ [popped]) :: rest).
  Hypothesis Hclose1 : forall g t, exists g', close (enc g [t]) = Ok (inr (Got (out t), g')).
  Hypothesis Hdr0 : forall g, dr (enc g []) = Some g.
  Hypothesis Hdr : forall g t ts, dr (enc g (t :: ts)) = None.
  Hypothesis Hok0 : ok [].
  Hypothesis Hpk : forall p x, pk p x -> length p = S (depth_each x).
  Hypothesis Hpush : forall g ts p x a, pk p x -> length ts <= depth_each x -> ok ts -> (ts <> [] -> depth_each x <> 0) ->
    push (enc g ts) a p = Ok (enc g (TNode (last (pos_path x) 0, a) [] :: ts)) /\ ok (TNode (last (pos_path x) 0, a) [] :: ts).

  Lemma lclose_down p d ts : length p = S d -> ts = [] \/ d <> 0 -> ok ts -> forall g,
    exists g1 ts1, (fun fu => loop (cbody p) fu (enc g ts)) ⇓ Ok (inl (enc g1 ts1)) /\ stk_lv ts1 = stk_lv ts /\ length ts1 = Nat.min (length ts) d /\ ok ts1.
  Proof.
    intros Ep; remember (length ts) as n eqn:En; revert ts En; induction n as [n IH] using lt_wf_ind; intros ts En Hd Hs g; subst n.
    destruct (S d <=? length ts) eqn:E.
    - pose proof E as Eb; apply Nat.leb_le in E; destruct Hd as [->|Hd]; [cbn in E; lia|].
      destruct ts as [|popped [|[v cs] rest]]; cbn in E; try lia.
      destruct (Hclose g popped v cs rest Hs) as [(g' & Ec) Hs'].
      destruct (IH (S (length rest)) ltac:(cbn; lia) (TNode v (cs ++ [popped]) :: rest) eq_refl (or_intror Hd) Hs' g') as (g1 & ts1 & Hl & Es & El & Hs1).
      exists g1, ts1; split; [|split; [rewrite stk_close; exact Es|split; [cbn [length] in *; lia|exact Hs1]]].
      eapply loop_step; [|exact Hl]; apply conv_eq; intros fu; unfold uclose_body; rewrite (Hmust _ _ _ _ Ep), Eb; cbn [bindR]; rewrite Ec; reflexivity.
    - exists g, ts; split; [|split; [reflexivity|split; [apply Nat.leb_gt in E; lia|exact Hs]]].
      apply loop_done, conv_eq; intros fu; unfold uclose_body; rewrite (Hmust _ _ _ _ Ep), E; reflexivity.
  Qed.
  Lemma lclose_out p ts : length p = 1 -> ts <> [] -> ok ts -> forall g,
    exists t c, (fun fu => loop (cbody p) fu (enc g ts)) ⇓ Ok (inr (Got (out t), c)) /\ leveled 0 t = stk_lv ts.
  Proof.
    intros Ep; remember (length ts) as n eqn:En; revert ts En; induction n as [n IH] using lt_wf_ind; intros ts En Hd Hs g; subst n.
    destruct ts as [|popped [|[v cs] rest]]; [congruence| |].
    - destruct (Hclose1 g popped) as (g' & Ec); exists popped, g'; split; [|reflexivity].
      apply loop_done, conv_eq; intros fu; unfold uclose_body; rewrite (Hmust _ _ _ _ Ep); cbn [length Nat.leb bindR]; rewrite Ec; reflexivity.
    - destruct (Hclose g popped v cs rest Hs) as [(g' & Ec) Hs'].
      destruct (IH (S (length rest)) ltac:(cbn; lia) (TNode v (cs ++ [popped]) :: rest) eq_refl ltac:(discriminate) Hs' g') as (t & c & Hl & Es).
      exists t, c; split; [|rewrite stk_close; exact Es].
      eapply loop_step; [|exact Hl]; apply conv_eq; intros fu; unfold uclose_body; rewrite (Hmust _ _ _ _ Ep); cbn [length Nat.leb bindR]; rewrite Ec; reflexivity.
  Qed.
  Lemma ldrain_out ts : ts <> [] -> ok ts -> forall g,
    exists t c, (fun fu => loop dbody fu (enc g ts)) ⇓ Ok (Some (Got (out t)), c) /\ leveled 0 t = stk_lv ts.
  Proof.
    remember (length ts) as n eqn:En; revert ts En; induction n as [n IH] using lt_wf_ind; intros ts En Hd Hs g; subst n.
    destruct ts as [|popped [|[v cs] rest]]; [congruence| |].
    - destruct (Hclose1 g popped) as (g' & Ec); exists popped, g'; split; [|reflexivity].
      apply loop_done, conv_eq; intros fu; unfold udrain_body; rewrite Hdr, Ec; reflexivity.
    - destruct (Hclose g popped v cs rest Hs) as [(g' & Ec) Hs'].
      destruct (IH (S (length rest)) ltac:(cbn; lia) (TNode v (cs ++ [popped]) :: rest) eq_refl ltac:(discriminate) Hs' g') as (t & c & Hl & Es).
      exists t, c; split; [|rewrite stk_close; exact Es].
      eapply loop_step; [|exact Hl]; apply conv_eq; intros fu; unfold udrain_body; rewrite Hdr, Ec; reflexivity.
  Qed.

  Lemma labelled_yield (L : list (result A * pos Nd)) g0 :
    (forall k, exists s', calls (p_next P) k (p_init P) ⇓ Ok (map (nth_error (map fst L)) (seq 0 k), s') /\
      (forall i a x, k = S i -> nth_error L i = Some (Got a, x) -> pk (p_path P s') x)) ->
    exists us, yields (uconsume_next P start must dr close push closure) (uconsume_new P g0) (map (outcome_map out) us) /\ Forall2 labelled us (handed [] L).
  Proof.
    intros HL.
    assert (H : exists outs, yields (uconsume_next P start must dr close push closure) (uconsume_new P g0) outs /\
      Forall2 (fun o g => exists u, o = outcome_map out u /\ labelled u g) outs (handed [] L)).
    { apply (uconsume_yields P start must dr close push closure L pk HL
        (fun st gr => exists g ts, st = enc g ts /\ ok ts /\ stk_lv ts = settle 0 (map item_side gr) /\ length ts = room_after 0 (map item_side gr))).
      - intros g; exists g, []; rewrite Hstart; auto.
      - intros bst gr p a x (g & st & -> & Hs & E1 & E2) Hp Hc; pose proof (Hpk _ _ Hp) as Ep.
        assert (Hc' : st = [] \/ depth_each x <> 0).
        { destruct Hc as [->|Hc]; [left; destruct st; [reflexivity|discriminate E2]|auto]. }
        destruct (lclose_down p _ st Ep Hc' Hs g) as (g1 & st1 & Hl & Es & El & Hs1).
        destruct (Hpush g1 st1 p x a Hp ltac:(lia) Hs1) as [Epu Hs2].
        { intros Hn; destruct Hc' as [->|Hc']; [destruct st1; [congruence|discriminate El]|exact Hc']. }
        exists (enc g1 st1), (enc g1 (TNode (last (pos_path x) 0, a) [] :: st1)); split; [exact Hl|split; [exact Epu|]].
        exists g1; eexists; split; [reflexivity|split; [exact Hs2|]].
        rewrite map_app; cbn [map]; unfold item_side at 2 4; cbn [fst snd]; rewrite settle_snoc, room_snoc, <- E2, <- E1.
        cbn [stk_lv leveled flat_map length]; rewrite Es, El; auto.
      - intros bst gr p x (g & st & -> & Hs & E1 & E2) Hg Hp Hd; pose proof (Hpk _ _ Hp) as Ep; rewrite Hd in Ep.
        assert (Hst : st <> []) by (intros ->; symmetry in E2; cbn in E2; apply room_nil, map_eq_nil in E2; congruence).
        destruct (lclose_out p st Ep Hst Hs g) as (t & c & Hl & Et).
        exists (out t), c; split; [exact Hl|]; exists (Got t); split; [reflexivity|]; cbn; rewrite Et; exact E1.
      - intros bst (g & st & -> & _ & _ & E); destruct st; [|discriminate E]; exists g; apply loop_done, conv_eq; intros fu.
        unfold udrain_body; rewrite Hdr0; reflexivity.
      - intros bst gr (g & st & -> & Hs & E1 & E2) Hg.
        assert (Hst : st <> []) by (intros ->; symmetry in E2; cbn in E2; apply room_nil, map_eq_nil in E2; congruence).
        destruct (ldrain_out st Hst Hs g) as (t & c & Hl & Et).
        exists (out t), c; split; [exact Hl|]; exists (Got t); split; [reflexivity|]; cbn; rewrite Et; exact E1.
      - exists Unwound; split; [reflexivity|exact I]. }
    destruct H as (outs & Hy & HF).
    assert (E : exists us, outs = map (outcome_map out) us /\ Forall2 labelled us (handed [] L)).
    { clear Hy; induction HF as [|o g outs l (u & -> & Hu) HF (us & -> & Hus)]; [exists []; auto|].
      exists (u :: us); split; [reflexivity|constructor; assumption]. }
    destruct E as (us & -> & Hus); exists us; auto.
  Qed.
End Labelled.

Definition path_of {A} (ts : list (tree (nat * A))) : list N := rev (map (fun t => N.of_nat (slot_of t)) ts).
Lemma path_of_cons {A} (t : tree (nat * A)) ts : path_of (t :: ts) = path_of ts ++ [N.of_nat (slot_of t)].
Proof. reflexivity. Qed.
Lemma pok_last {Nd} p (x : pos Nd) : p = map N.of_nat (pos_path x) -> pos_path x <> [] -> last_seg p = Ok (N.of_nat (last (pos_path x) 0)).
Proof.
  intros -> Hn; unfold last_seg; destruct (pos_path x) as [|i q _] using rev_ind; [congruence|].
  rewrite map_app, rev_app_distr, last_last; reflexivity.
Qed.
Definition true_at {Nd} (p : list N) (x : pos Nd) : Prop := p = map N.of_nat (pos_path x) /\ pos_path x <> [].
Lemma true_at_depth {Nd} p (x : pos Nd) : true_at p x -> length p = S (depth_each x).
Proof. intros [-> Hn]; unfold depth_each; rewrite map_length; destruct (pos_path x); [congruence|reflexivity]. Qed.

Section NaryPath.
  Context {A Nd G O : Type}.
  Variables (f : G -> list O -> list N -> A -> G * option O) (h : list O -> list N -> A -> O).
  Hypothesis Hf : forall g os p v, snd (f g os p v) = Some (h os p v).

  Definition lvalue (t : tree (nat * A)) : A := match t with TNode (_, v) _ => v end.
  Definition lkids (q : list N) (t : tree (nat * A)) : list O := match t with TNode _ ts => map (fold_path_value h q) ts end.
  Fixpoint stack_kids (ts : list (tree (nat * A))) : list (list O) :=
    match ts with [] => [] | t :: rest => lkids (path_of (t :: rest)) t :: stack_kids rest end.
  Definition lenc (g : G) (ts : list (tree (nat * A))) : @cfoldp_st A G O :=
    (g, map lvalue ts, stack_kids ts, map (fun t => N.of_nat (slot_of t)) ts).

  Lemma stack_kids_length ts : length (stack_kids ts) = length ts.
  Proof. induction ts; cbn; congruence. Qed.
  Lemma fold_path_eq p t : fold_path_value h p t = h (lkids (p ++ [N.of_nat (slot_of t)]) t) (p ++ [N.of_nat (slot_of t)]) (lvalue t).
  Proof. destruct t as [[i v] ts]; reflexivity. Qed.

  Lemma ucfoldp_yield (P : pipe (result A)) (L : list (result A * pos Nd)) g0 :
    (forall k, exists s', calls (p_next P) k (p_init P) ⇓ Ok (map (nth_error (map fst L)) (seq 0 k), s') /\
      (forall i a x, k = S i -> nth_error L i = Some (Got a, x) -> true_at (p_path P s') x)) ->
    exists us, yields (ucfoldp_next P f) (uconsume_new P g0) (map (outcome_map (fold_path_value h [])) us) /\ Forall2 labelled us (handed [] L).
  Proof.
    intros HL; unfold ucfoldp_next.
    apply (labelled_yield P _ _ _ _ _ _ lenc (fun _ => True) (fold_path_value h []) true_at); auto.
    - intros g ts p d Ep; unfold lenc; cbn [fst snd]; rewrite stack_kids_length; apply deeper_len; exact Ep.
    - intros g popped [i v] cs rest _; split; [|exact I]; unfold lenc.
      cbn [map stack_kids ucfoldp_close].
      change (rev (N.of_nat (slot_of popped) :: N.of_nat (slot_of (TNode (i, v) cs)) :: map (fun t => N.of_nat (slot_of t)) rest))
        with (path_of (popped :: TNode (i, v) cs :: rest)).
      set (q := path_of (popped :: TNode (i, v) cs :: rest)).
      pose proof (Hf g (lkids q popped) q (lvalue popped)) as E; destruct (f g (lkids q popped) q (lvalue popped)) as [g' o]; cbn in E; subst o.
      exists g'; unfold q; rewrite path_of_cons, <- fold_path_eq; cbn [lkids]; rewrite map_app; reflexivity.
    - intros g t; unfold lenc; cbn [map stack_kids ucfoldp_close].
      change (rev [N.of_nat (slot_of t)]) with (path_of [t]); set (q := path_of [t]).
      pose proof (Hf g (lkids q t) q (lvalue t)) as E; destruct (f g (lkids q t) q (lvalue t)) as [g' o]; cbn in E; subst o.
      exists g'; rewrite fold_path_eq; reflexivity.
    - apply true_at_depth.
    - intros g ts p x a [Ep Hn] Hlen _ _; split; [|exact I]; unfold lenc, cfoldp_push.
      assert (Ed : coll_depth p = Ok (N.of_nat (depth_each x))).
      { rewrite Ep; unfold coll_depth, depth_each; destruct (pos_path x); [congruence|]; cbn; rewrite map_length; reflexivity. }
      rewrite Ed, (pok_last _ _ Ep Hn); cbn [bindR]; rewrite map_length.
      destruct (N.of_nat (length ts) =? N.of_nat (depth_each x) + 1)%N eqn:E; [apply N.eqb_eq in E; lia|]; reflexivity.
  Qed.
End NaryPath.

Section BinaryPath.
  Context {A Nd G O : Type}.
  Variables (f : G -> option O * option O -> list N -> A -> G * option O) (h : option O * option O -> list N -> A -> O).
  Hypothesis Hf : forall g os p v, snd (f g os p v) = Some (h os p v).

  Definition bpkids (q : list N) (t : btree A) : option O * option O :=
    match t with BNode _ l r => (option_map (bfold_path_value h (q ++ [0%N])) l, option_map (bfold_path_value h (q ++ [1%N])) r) end.
  Fixpoint bstack_kids (ts : list (tree (nat * A))) : list (option O * option O) :=
    match ts with [] => [] | t :: rest => bpkids (path_of (t :: rest)) (sides t) :: bstack_kids rest end.
  Definition blenc (g : G) (ts : list (tree (nat * A))) : @bcfoldp_st A G O :=
    (g, map (fun t => bvalue (sides t)) ts, bstack_kids ts, map (fun t => N.of_nat (slot_of t)) ts).
  Lemma bstack_kids_length ts : length (bstack_kids ts) = length ts.
  Proof. induction ts; cbn; congruence. Qed.
  Lemma bfold_path_eq p t : bfold_path_value h p t = h (bpkids p t) p (bvalue t).
  Proof. destruct t; reflexivity. Qed.
  Lemma bpkids_add q i v cs t : slot_of t <= 1 ->
    set_slot (N.of_nat (slot_of t)) (bpkids q (sides (TNode (i, v) cs))) (bfold_path_value h (q ++ [N.of_nat (slot_of t)]) (sides t)) =
    Ok (bpkids q (sides (TNode (i, v) (cs ++ [t])))).
  Proof.
    intros Ht; cbn [sides bpkids]; rewrite !fold_left_app; cbn [fold_left].
    destruct t as [[j w] ts]; cbn [slot_of] in *; destruct j as [|[|j]]; [reflexivity|reflexivity|lia].
  Qed.

  Lemma ubcfoldp_yield (P : pipe (result A)) (L : list (result A * pos Nd)) g0 :
    (forall k, exists s', calls (p_next P) k (p_init P) ⇓ Ok (map (nth_error (map fst L)) (seq 0 k), s') /\
      (forall i a x, k = S i -> nth_error L i = Some (Got a, x) -> pok_side (p_path P s') x)) ->
    exists us, yields (ubcfoldp_next P f) (uconsume_new P g0) (map (outcome_map (fun u => bfold_path_value h [N.of_nat (label u)] (sides u))) us) /\ Forall2 labelled us (handed [] L).
  Proof.
    intros HL; unfold ubcfoldp_next.
    apply (labelled_yield P _ _ _ _ _ _ blenc sided (fun u => bfold_path_value h [N.of_nat (label u)] (sides u)) pok_side); auto.
    - intros g ts p d Ep; unfold blenc; cbn [fst snd]; rewrite bstack_kids_length; apply deeper_len; exact Ep.
    - intros g popped [i v] cs rest Hs; unfold sided in *; cbn [removelast] in Hs; inversion Hs as [|? ? H1 H2]; subst; split.
      + unfold blenc; cbn [map bstack_kids ubcfoldp_close].
        change (rev (N.of_nat (slot_of popped) :: N.of_nat (slot_of (TNode (i, v) cs)) :: map (fun t => N.of_nat (slot_of t)) rest))
          with (path_of (popped :: TNode (i, v) cs :: rest)).
        set (q := path_of (popped :: TNode (i, v) cs :: rest)).
        pose proof (Hf g (bpkids q (sides popped)) q (bvalue (sides popped))) as E.
        destruct (f g (bpkids q (sides popped)) q (bvalue (sides popped))) as [g' o]; cbn in E; subst o.
        exists g'; unfold q; rewrite <- bfold_path_eq, path_of_cons, bpkids_add by exact H1; cbn [bindR]; reflexivity.
      + cbn [removelast]; destruct rest; [constructor|]; inversion H2; subst; constructor; assumption.
    - intros g t; unfold blenc; cbn [map bstack_kids ubcfoldp_close].
      change (rev [N.of_nat (slot_of t)]) with (path_of [t]); set (q := path_of [t]).
      pose proof (Hf g (bpkids q (sides t)) q (bvalue (sides t))) as E; destruct (f g (bpkids q (sides t)) q (bvalue (sides t))) as [g' o]; cbn in E; subst o.
      exists g'; rewrite bfold_path_eq; destruct t as [[i v] ts]; reflexivity.
    - constructor.
    - apply pok_side_depth.
    - intros g ts p x a Hp Hlen Hs Hn; split.
      + unfold blenc; rewrite (pok_side_last _ _ Hp); reflexivity.
      + unfold sided; cbn [removelast]; destruct ts as [|y ts]; [constructor|]; constructor; [|exact Hs].
        cbn; apply Hp, Hn; discriminate.
  Qed.
End BinaryPath.

(** ** The trees that come out whole *)
Local Arguments all_some : simpl never.
Section WholePath.
  Context {A Nd O : Type} (h : list O -> list N -> A -> O).

  Fixpoint relab (t : tree (A * pos Nd)) : tree (nat * A) :=
    match t with TNode (a, x) ts => TNode (last (pos_path x) 0, a) (map relab ts) end.

  Lemma calm_at_items (t : tree (result A * pos Nd)) : forall p i u, below (p ++ [i]) t -> calm_at t = Some u ->
    (exists g, preorder t = map as_got g /\ map item_side g = leveled (length p) (relab u)) /\
    fold_path_value h (map N.of_nat p) (relab u) = fold_at h u.
  Proof.
    induction t as [[r x] ts IH] using tree_ind'; intros p i u Hb Hc; apply below_node in Hb as [Hx Hb].
    destruct r as [a|]; cbn in Hc; [|discriminate].
    destruct (all_some (map calm_at ts)) as [us|] eqn:Es; [|discriminate]; injection Hc as <-.
    assert (H : forall us, all_some (map calm_at ts) = Some us ->
      (exists g, flat_map preorder ts = map as_got g /\ map item_side g = flat_map (leveled (S (length p))) (map relab us)) /\
      map (fold_path_value h (map N.of_nat (p ++ [i]))) (map relab us) = map (fold_at h) us).
    { clear us Es; induction ts as [|t ts IHts]; intros us Es; [injection Es as <-; split; [exists []; auto|reflexivity]|].
      inversion IH as [|? ? H1 H2]; inversion Hb as [|? ? (j & H3) H4]; subst; cbn [map] in Es.
      apply all_some_cons in Es as (u & us' & Eu & Es & ->).
      destruct (H1 _ _ _ H3 Eu) as [(g1 & P1 & L1) F1]; destruct (IHts H2 H4 us' Es) as [(g2 & P2 & L2) F2].
      rewrite app_length, Nat.add_1_r in L1.
      split; [exists (g1 ++ g2); cbn; rewrite !map_app, P1, P2, L1, L2; auto|cbn [map]; rewrite F1, F2; reflexivity]. }
    destruct (H us Es) as [(g & P & L) F]; split.
    - exists ((a, x) :: g); cbn; rewrite P, L; split; [reflexivity|].
      unfold item_side, depth_each; cbn; rewrite Hx, app_length, Nat.add_1_r; reflexivity.
    - cbn [relab fold_path_value fold_at]; rewrite Hx, last_last, <- F, map_app; reflexivity.
  Qed.

  Definition path_tree_is (u : tree (A * pos Nd)) (g : list (A * pos Nd)) : Prop :=
    map item_side g = leveled 0 (relab u) /\ fold_path_value h [] (relab u) = fold_at h u.
  Lemma whole_path (t : tree (result A * pos Nd)) : (exists i, below [i] t) -> whole preorder calm_at root_of path_tree_is t.
  Proof.
    intros (i & Hb); split.
    - destruct t as [[r x] ts]; apply below_node in Hb as [Hx _]; eexists x, _; split; [reflexivity|unfold depth_each; rewrite Hx; reflexivity].
    - intros u Hc; destruct (calm_at_items t [] i u Hb Hc) as [(g & P & L) F]; cbn [length] in L.
      destruct g as [|[a x] g]; [destruct t; discriminate P|].
      exists a, x, g; split; [exact P|split; [|split; [exact L|exact F]]].
      destruct u as [[v y] us]; cbn [map relab leveled] in L; injection L as _ _ _ L.
      assert (HF : Forall (fun eb => 1 <= fst eb) (map (@item_side A Nd) g)).
      { rewrite L; apply Forall_flat_map, Forall_forall; intros w _; apply leveled_deep. }
      rewrite Forall_map in HF; eapply Forall_impl; [|exact HF]; unfold item_side; cbn; intros; lia.
  Qed.
  Definition path_fits (o : result O) (g : result (list (A * pos Nd))) : Prop := exists w, o = outcome_map (fold_path_value h []) w /\ labelled w g.
  Lemma path_made (o : result O) u (g : list (A * pos Nd)) : path_fits o (Got g) -> path_tree_is u g -> o = Got (fold_at h u).
  Proof.
    intros (w & -> & Hw) [E F]; destruct w as [w|]; [|destruct Hw]; cbn in Hw; rewrite E, settle_tree in Hw.
    apply leveled_inj in Hw; subst w; cbn; rewrite F; reflexivity.
  Qed.
End WholePath.

Section WholeBinaryPath.
  Context {A Nd O : Type} (h : option O * option O -> list N -> A -> O).

  Lemma bcalm_at_values (t : btree (result A * pos Nd)) : forall p u, bbelow p t -> bcalm_at t = Some u ->
    bcalm t = Some (btree_map fst u) /\ bfold_path_value h (map N.of_nat p) (btree_map fst u) = bfold_at h u.
  Proof.
    induction t as [[r x] l rr IHl IHr] using btree_ind'; intros p u (Hx & Hl & Hr) Hc.
    destruct r as [a|]; cbn in Hc; [|discriminate].
    assert (Hside : forall (o : option (btree (result A * pos Nd))) i uo,
      OForall (fun t => forall p u, bbelow p t -> bcalm_at t = Some u ->
        bcalm t = Some (btree_map fst u) /\ bfold_path_value h (map N.of_nat p) (btree_map fst u) = bfold_at h u) o ->
      match o with Some t => bbelow (p ++ [i]) t | None => True end ->
      match o with None => Some None | Some t => option_map Some (bcalm_at t) end = Some uo ->
      match o with None => Some None | Some t => option_map Some (bcalm t) end = Some (option_map (btree_map fst) uo) /\
      option_map (bfold_path_value h (map N.of_nat p ++ [N.of_nat i])) (option_map (btree_map fst) uo) = option_map (bfold_at h) uo).
    { intros [t|] i uo IH Hb Ho; [|injection Ho as <-; auto].
      destruct (bcalm_at t) as [v|] eqn:Ev; [|discriminate]; injection Ho as <-.
      destruct (IH (p ++ [i]) v Hb Ev) as [E F]; rewrite map_app in F; cbn [map] in F; rewrite E; cbn [option_map]; rewrite F; auto. }
    destruct (match l with None => Some None | Some t => option_map Some (bcalm_at t) end) as [ul|] eqn:El; [|discriminate].
    destruct (match rr with None => Some None | Some t => option_map Some (bcalm_at t) end) as [ur|] eqn:Er; [|discriminate].
    injection Hc as <-.
    destruct (Hside l 0 ul IHl Hl El) as [E1 F1]; destruct (Hside rr 1 ur IHr Hr Er) as [E2 F2].
    cbn [bcalm]; rewrite E1, E2; cbn [btree_map fst]; split; [reflexivity|].
    cbn [bfold_path_value bfold_at]; rewrite Hx, <- F1, <- F2; reflexivity.
  Qed.

  Definition path_btree_is (u : btree (A * pos Nd)) (g : list (A * pos Nd)) : Prop :=
    exists i, map item_side g = leveled 0 (lab i (btree_map fst u)) /\ bfold_path_value h [N.of_nat i] (btree_map fst u) = bfold_at h u.
  Lemma whole_binary_path (t : btree (result A * pos Nd)) : (exists i, bbelow [i] t) -> whole (fun t => preorder (flat t)) bcalm_at broot_of path_btree_is t.
  Proof.
    intros (i & Hb); split.
    - apply (whole_binary t); exists i; exact Hb.
    - intros u Hc; destruct (bcalm_at_values t [i] u Hb Hc) as [E F].
      destruct (bcalm_items t [i] _ Hb ltac:(discriminate) E) as (g & P & L); cbn [length pred last] in L.
      destruct g as [|[a x] g]; [destruct t as [[r x] l rr]; discriminate P|].
      exists a, x, g; split; [exact P|split; [|exists i; split; [exact L|exact F]]].
      destruct (btree_map fst u) as [v ul ur]; cbn [map lab leveled] in L; injection L as _ _ _ L.
      assert (HF : Forall (fun eb => 1 <= fst eb) (map (@item_side A Nd) g)).
      { rewrite L; apply Forall_flat_map, Forall_forall; intros w _; apply leveled_deep. }
      rewrite Forall_map in HF; eapply Forall_impl; [|exact HF]; unfold item_side; cbn; intros; lia.
  Qed.
  Definition bpath_fits (o : result O) (g : result (list (A * pos Nd))) : Prop :=
    exists w, o = outcome_map (fun u => bfold_path_value h [N.of_nat (label u)] (sides u)) w /\ labelled w g.
  Lemma bpath_made (o : result O) u (g : list (A * pos Nd)) : bpath_fits o (Got g) -> path_btree_is u g -> o = Got (bfold_at h u).
  Proof.
    intros (w & -> & Hw) (i & E & F); destruct w as [w|]; [|destruct Hw]; cbn in Hw; rewrite E, settle_tree in Hw.
    apply leveled_inj in Hw; subst w; cbn [outcome_map]; rewrite sides_lab, <- F; do 2 f_equal; rewrite <- (lab_slot i (btree_map fst u)) at 2.
    destruct (lab i (btree_map fst u)) as [[j w] ts]; reflexivity.
  Qed.
End WholeBinaryPath.

Lemma fits_of {A Nd O} (k : tree (nat * A) -> O) us (l : list (result (list (A * pos Nd)))) : Forall2 labelled us l ->
  Forall2 (fun o g => exists w, o = outcome_map k w /\ labelled w g) (map (outcome_map k) us) l.
Proof. induction 1; cbn; constructor; eauto. Qed.
