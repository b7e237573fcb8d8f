(** * ProofsMapPathEnd: map_path on one tree, from the first node to the result. *)
From Verif Require Import Prelim PrelimFacts Spec SpecFacts SpecPipe SpecObs SpecMapPath ModelNode NodeFacts ModelPre ModelPipe ModelPipeColl
  ModelMapPath ProofsPlain Slots PipeCore PipeBase PipeChain PipeEnd ProofsPipe PipeFinal PipePure PipeSpecFacts PipeOps ProofsMapPath.
From Verif Require ProofsPath.

(** ** What is seen, on stored segments *)
Definition seen_n (q p : list N) : list N := if length q <? length p then q else p ++ skipn (length p) q.
Definition seen_b (q p : list N) : list N := if length q <? length p then q else p ++ repeat 1%N (length q - length p).

Lemma seen_n_child q p : length q < length p -> seen_n q p = q.
Proof. intros H; unfold seen_n; rewrite (proj2 (Nat.ltb_lt _ _) H); reflexivity. Qed.
Lemma seen_b_child q p : length q < length p -> seen_b q p = q.
Proof. intros H; unfold seen_b; rewrite (proj2 (Nat.ltb_lt _ _) H); reflexivity. Qed.

Lemma seen_n_other popped x x' p0 : seen_n (rev (popped ++ x :: p0)) (rev (x' :: p0)) = rev (x' :: p0) ++ rev popped.
Proof.
  unfold seen_n; rewrite !rev_length, app_length; cbn [length].
  rewrite (proj2 (Nat.ltb_ge _ _)) by lia; f_equal.
  rewrite rev_app_distr; cbn [rev]; rewrite skipn_app.
  rewrite skipn_all2 by (rewrite app_length, rev_length; cbn; lia).
  rewrite app_length, rev_length; cbn [length app]; replace (S (length p0) - (length p0 + 1)) with 0 by lia; reflexivity.
Qed.
Lemma seen_b_other popped x x' p0 : seen_b (rev (popped ++ x :: p0)) (rev (x' :: p0)) = rev (x' :: p0) ++ repeat 1%N (length popped).
Proof.
  unfold seen_b; rewrite !rev_length, app_length; cbn [length].
  rewrite (proj2 (Nat.ltb_ge _ _)) by lia; do 2 f_equal; lia.
Qed.

Lemma seen_n_wrap q p : seen_n (map wrap q) (map wrap p) = map wrap (stale q p).
Proof.
  unfold seen_n, stale; rewrite !map_length; destruct (length q <? length p); [reflexivity|].
  rewrite map_app; f_equal; apply skipn_map.
Qed.
Lemma seen_b_wrap q p : seen_b (map wrap q) (map wrap p) = map wrap (bstale q p).
Proof.
  unfold seen_b, bstale; rewrite !map_length; destruct (length q <? length p); [reflexivity|].
  rewrite map_app; f_equal; generalize (length q - length p) as k; induction k as [|k IH]; cbn; [reflexivity|rewrite <- IH; reflexivity].
Qed.
Lemma seens_wrap seen st : (forall q p, seen (map wrap q) (map wrap p) = map wrap (st q p)) ->
  forall ps q, seens seen (map wrap q) (map (map wrap) ps) = map (map wrap) (stale_from st q ps).
Proof. intros H ps; induction ps as [|p ps IH]; intros q; cbn; [reflexivity|rewrite H, IH; reflexivity]. Qed.

(** ** The consuming loop meets freed memory *)
Section Blow.
  Context {A X St : Type} (P : pipe A) (pok : list N -> X -> Prop).
  Context (len : St -> nat) (top : St -> Res St) (push : St -> A -> list N -> Res St).
  Context (pth : X -> list N) (dep : X -> nat).
  Hypothesis Hpush : forall p x, pok p x -> forall st a, push st a p = push st a (pth x).
  Hypothesis Hdep : forall p x, pok p x -> length p = dep x.
  Context (good : St -> Prop) (okx : X -> Prop).
  Hypothesis Hgood : forall st a x, good st -> okx x -> exists st1 st2, closes len top (dep x) st st1 /\ push st1 a (pth x) = Ok st2 /\ good st2.

  Lemma blows_loop i l : blows P pok i l -> forall st, good st -> Forall (fun ax => okx (snd ax)) l ->
    (fun f => loop (cbody P len top push) f (i, st)) ⇓ UB.
  Proof.
    induction 1 as [i Hn|i a x i1 l Hn Hp _ IH]; intros st Hg Hx.
    - destruct Hn as [F HF]; exists (S F); intros [|f] Hf; [lia|]; cbn [loop]; unfold cbody at 1; rewrite HF by lia; reflexivity.
    - inversion Hx as [|? ? Hx1 Hx2]; subst; cbn [snd] in Hx1.
      destruct (Hgood st a x Hg Hx1) as (st1 & st2 & Hc & Hpu & Hg2).
      eapply loop_step; [|apply IH; [exact Hg2|exact Hx2]].
      eapply (body_some P pok len top push pth dep Hpush Hdep); eassumption.
  Qed.
End Blow.

Lemma closes_some {A} d (st : list (tree A)) : 0 < d -> exists st1, closes (@length (tree A)) (@attach_top A) d st st1 .
Proof.
  intros Hd; remember (length st) as k eqn:Ek; revert st Ek; induction k as [k IH] using lt_wf_ind; intros st ->.
  destruct (Nat.le_gt_cases (length st) d) as [Hl|Hl]; [exists st; apply cl_done; exact Hl|].
  destruct st as [|p [|[v cs] rest]]; cbn in Hl; try lia.
  destruct (IH (length (TNode v (cs ++ [p]) :: rest)) ltac:(cbn; lia) _ eq_refl) as (st1 & H1).
  exists st1; eapply cl_step; [cbn; lia|reflexivity|exact H1].
Qed.

Definition sided {A} (e : N * btree A) : Prop := fst e = 0%N \/ fst e = 1%N.
Lemma bcloses_some {A} d (st : list (N * btree A)) : 0 < d -> Forall sided st ->
  exists st1, closes (@length (N * btree A)) (@battach_top A) d st st1 /\ Forall sided st1.
Proof.
  intros Hd; remember (length st) as k eqn:Ek; revert st Ek; induction k as [k IH] using lt_wf_ind; intros st -> Hs.
  destruct (Nat.le_gt_cases (length st) d) as [Hl|Hl]; [exists st; split; [apply cl_done; exact Hl|exact Hs]|].
  destruct st as [|[s p] [|[s' [v l r]] rest]]; cbn in Hl; try lia.
  inversion Hs as [|? ? H1 H2]; subst; inversion H2 as [|? ? H3 H4]; subst; unfold sided in H1, H3; cbn in H1, H3.
  assert (Ht : exists t', set_child s (BNode v l r) p = Ok t') by (destruct H1 as [->| ->]; eexists; reflexivity).
  destruct Ht as (t' & Ht).
  destruct (IH (length ((s', t') :: rest)) ltac:(cbn; lia) _ eq_refl) as (st1 & Hc1 & Hs1).
  { constructor; [exact H3|exact H4]. }
  exists st1; split; [|exact Hs1]; eapply cl_step; [cbn; lia| |exact Hc1].
  cbn [battach_top]; rewrite Ht; reflexivity.
Qed.

Lemma bind_ub {A B} (m : nat -> Res A) (k : nat -> A -> Res B) : m ⇓ UB -> (fun f => bindR (m f) (k f)) ⇓ UB.
Proof. intros [F HF]; exists F; intros f Hf; rewrite HF by exact Hf; reflexivity. Qed.

Lemma bwalk_ext {G X A} (v v' : G -> X -> G * outcome A) t : (forall g x, v g x = v' g x) -> forall g, bwalk v g t = bwalk v' g t.
Proof.
  intros H; induction t as [x l r IHl IHr] using btree_ind'; intros g; rewrite !bwalk_node, H.
  destruct (v' g x) as [g1 [|a [|]]]; try reflexivity.
  assert (Hs : forall o, OForall (fun t => forall g, bwalk v g t = bwalk v' g t) o -> forall g, walk_side (bwalk v) g o = walk_side (bwalk v') g o)
    by (intros [t|] Ho g2; cbn; [apply Ho|reflexivity]).
  rewrite (Hs l IHl); destruct (walk_side (bwalk v') g1 l) as [g2 l']; rewrite (Hs r IHr); reflexivity.
Qed.

(** ** The run over one tree *)
Section One.
  Context {Nd V I C B G : Type} (grow : nat -> nat) (gv : Nd -> V * C) (into_iter : C -> list I) (sl : list I -> list (option Nd)).
  Variable pbody : nat -> list (list I) * list N -> Res (list (list I) * list N + option Nd * (list (list I) * list N)).
  Variable vbody : nat -> list (list I) * vec -> Res (list (list I) * vec + option Nd * (list (list I) * vec)).
  Variable inv : list (list I) -> list N -> Prop.
  Variable over : list N -> list N.
  Variable T : list nat -> list Nd -> Nd -> tree (pos Nd).
  Hypothesis Hsim : forall P0 s0, simulates (base_pipe gv into_iter pbody s0) (base_vis gv) pok_exact (base_R into_iter sl T P0).
  Hypothesis Hroot : forall p ab n, exists ts, T p ab n = TNode (mkPos p ab n) ts.
  Hypothesis Hloop : loop_rel inv over pbody vbody.
  Hypothesis Hinit : forall path, inv [] path.
  Hypothesis Hpush : forall stack path c, inv stack path -> inv (into_iter c :: stack) (usize_max :: path).
  Hypothesis over_len : forall l, length (over l) = length l.
  Hypothesis over_cons : forall x l, exists y, over (x :: l) = over l ++ [y].
  Hypothesis Hgrow : forall c, c < grow c.
  Variable seen : list N -> list N -> list N.
  Hypothesis seen_child : forall q p, length q < length p -> seen q p = q.
  Hypothesis seen_other : forall popped x x' p0, seen (rev (popped ++ x :: p0)) (rev (x' :: p0)) = rev (x' :: p0) ++ over popped.
  Hypothesis vbody_const : forall f f' s, vbody f s = vbody f' s.
  Context (f : G -> list N -> V -> G * B).

  Definition valued (x : pos Nd) : V * pos Nd := (nval gv (pos_here x), x).

  Lemma base_items P0 n : exists s', items (base_pipe gv into_iter pbody (pt_new n (map wrap P0))) pok_exact
    (pt_new n (map wrap P0)) (map valued (preorder (T P0 [] n))) s'.
  Proof.
    destruct (sim_items _ _ _ _ (Hsim P0 (pt_new n (map wrap P0))) _ _ _ _ (base_R_init into_iter sl T P0 n)) as (s' & Hit & _).
    exists s'; cbn [app] in Hit.
    assert (E : flat_map preorder (snd (walk_all (with_node (base_vis gv)) tt [T P0 [] n])) = map valued (preorder (T P0 [] n))); [|rewrite <- E; exact Hit].
    unfold walk_all; rewrite walk_list_cons.
    destruct (walk_map_accum (fun (g : unit) x => (g, valued x)) (T P0 [] n) tt) as (g' & t' & E & _ & Acc).
    rewrite (walk_ext _ (fun g x => let '(g1, b) := (g, valued x) in (g1, Keep b true))) by reflexivity.
    rewrite E, walk_list_nil; cbn [snd opt_list app flat_map]; rewrite app_nil_r.
    pose proof (f_equal snd Acc) as A1; cbn [snd] in A1; rewrite <- A1; clear.
    induction (preorder (T P0 [] n)) as [|x l IH]; cbn; [reflexivity|].
    destruct (map_accum (fun g x => (g, valued x)) tt l); cbn in *; rewrite IH; reflexivity.
  Qed.

  (** After the root. *)
  Lemma after_root P0 n lft cap id : exists s1 s' sv1,
    (fun k => vt_next_with grow gv into_iter vbody k (vt_new n (vec_of (rev (map wrap P0)) lft cap id))) ⇓ Ok (Some (nval gv n), sv1) /\
    items (base_pipe gv into_iter pbody (pt_new n (map wrap P0))) pok_exact s1 (map valued (tl (preorder (T P0 [] n)))) s' /\
    rel inv cap id sv1 s1 /\ pt_root s1 = None /\ pt_deck s1 <> None /\ pt_path s1 = rev (map wrap P0) /\
    forall sl, vec_read (vt_path sv1) sl = vec_read (vec_of (rev (map wrap P0)) lft cap id) sl.
  Proof.
    destruct (base_items P0 n) as (s' & Hit); destruct (Hroot P0 [] n) as (ts & ET); rewrite ET in Hit |- *.
    cbn [preorder map] in Hit; inversion Hit as [|? ? ? s1 ? ? Hn Hp Hi1]; subst.
    assert (Hrel : rel inv cap id (vt_new n (vec_of (rev (map wrap P0)) lft cap id)) (@pt_new Nd I C n (map wrap P0))).
    { split; [reflexivity|split; [reflexivity|split; [reflexivity|split; [eexists; reflexivity|apply Hinit]]]]. }
    destruct (conv_root grow gv into_iter pbody vbody inv vbody_const cap id _ _ _ _ Hrel ltac:(discriminate) Hn)
      as (sv1 & Hv & Hrel1 & Hr1 & Hd1 & Ep & Hread).
    exists s1, s', sv1; repeat (split; [assumption|]); exact Hread.
  Qed.

  Definition xval (x : pos Nd) : V := nval gv (pos_here x).
  Definition handed (first : list N) (ps : list (list N)) : list (list N) :=
    match ps with [] => [] | p :: ps' => first :: seens seen p ps' end.
  Definition calls_on (g : G) (first : list N) (xs : list (pos Nd)) : G * list B :=
    map_accum (call f) g (combine (handed first (map xseg xs)) (map xval xs)).

  Lemma valued_fst xs : map fst (map valued xs) = map xval xs.
  Proof. rewrite map_map; reflexivity. Qed.
  Lemma valued_snd xs : map snd (map valued xs) = xs.
  Proof. rewrite map_map; apply map_id. Qed.
  Lemma valued_seg xs : map (fun ax => xseg (snd ax)) (map valued xs) = map xseg xs.
  Proof. rewrite map_map; reflexivity. Qed.

  Notation MP n g := (mpipe grow gv into_iter vbody f (vt_new n (vec_new 0)) g).

  Lemma one_items n g : Forall (fun q => length q < grow 0) (removelast (map xseg (preorder (T [] [] n)))) ->
    exists sv', items (MP n g) pok_exact (p_init (MP n g))
      (combine (snd (calls_on g [] (preorder (T [] [] n)))) (preorder (T [] [] n))) (sv', fst (calls_on g [] (preorder (T [] [] n)))).
  Proof.
    intros Hf; destruct (after_root [] n [] 0 0) as (s1 & s' & sv1 & Hv & Hi & Hrel & Hr & Hd & Ep & Hread).
    destruct (Hroot [] [] n) as (ts & ET); rewrite ET in *; cbn [preorder tl map] in *.
    unfold calls_on; cbn [map handed combine map_accum fst snd call].
    change (xval (mkPos [] [] n)) with (nval gv n) in *.
    change (call f g ([], nval gv n)) with (f g [] (nval gv n)).
    pose proof (mp_items grow gv into_iter pbody vbody inv over Hloop Hpush over_len over_cons seen seen_child seen_other vbody_const f
      (vt_new n (vec_new 0)) g _ _ _ _ Hi 0 0 sv1) as M.
    destruct (f g [] (nval gv n)) as [g1 b] eqn:Ef.
    specialize (M g1 Hrel Hr Hd).
    rewrite Ep, valued_seg, valued_fst, valued_snd in M; cbn [map rev] in M.
    destruct M as (sv' & Hit); [right; auto|exact Hf|].
    change (xseg (mkPos [] [] n)) with (@nil N).
    destruct (map_accum (call f) g1 _) as [g2 outs]; cbn [fst snd combine] in Hit |- *.
    exists sv'; eapply it_cons; [| |exact Hit].
    - cbn; unfold map_path_next; cbn [fst snd p_next]; eapply conv_bind; [exact Hv|].
      cbn beta iota; rewrite Hread; cbn; rewrite Ef; now_conv.
    - cbn [p_path mpipe map_path fst]; destruct Hrel as (_ & _ & _ & (lft & ->) & _); rewrite vec_list_of, Ep; reflexivity.
  Qed.

  Lemma one_blows n g : Exists (fun q => grow 0 <= length q) (removelast (map xseg (preorder (T [] [] n)))) ->
    exists b outs l1 l2, tl (preorder (T [] [] n)) = l1 ++ l2 /\ length outs = length l1 /\
      blows (MP n g) pok_exact (p_init (MP n g)) ((b, mkPos [] [] n) :: combine outs l1).
  Proof.
    intros Hf; destruct (after_root [] n [] 0 0) as (s1 & s' & sv1 & Hv & Hi & Hrel & Hr & Hd & Ep & Hread).
    destruct (Hroot [] [] n) as (ts & ET); rewrite ET in *; cbn [preorder tl map] in *.
    destruct (mp_blows grow gv into_iter pbody vbody inv over Hloop Hpush over_len over_cons Hgrow seen seen_child seen_other vbody_const f
      (vt_new n (vec_new 0)) g _ _ _ _ Hi 0 0 sv1 (fst (f g [] (nval gv n))) Hrel Hr Hd) as (outs & l1 & l2 & E & Hl & Hb).
    { right; auto. }
    { rewrite Ep, valued_seg; exact Hf. }
    apply map_eq_app in E as (m1 & m2 & -> & <- & <-).
    exists (snd (f g [] (nval gv n))), outs, m1, m2; split; [reflexivity|split; [rewrite Hl, map_length; reflexivity|]].
    rewrite valued_snd in Hb; eapply bl_step; [| |exact Hb].
    - cbn; unfold map_path_next; cbn [fst snd p_next]; eapply conv_bind; [exact Hv|].
      cbn beta iota; rewrite Hread; cbn; destruct (f g [] (nval gv n)); now_conv.
    - cbn [p_path mpipe map_path fst]; destruct Hrel as (_ & _ & _ & (lft & ->) & _); rewrite vec_list_of, Ep; reflexivity.
  Qed.

  (** *** The same calls as a walk *)
  Section Walk.
    Variable first : list N.
    Definition hand (st : option (list N) * G) (x : pos Nd) : option (list N) * G * B :=
      let '(g1, b) := f (snd st) (match fst st with None => first | Some q => seen q (xseg x) end) (xval x) in ((Some (xseg x), g1), b).
    Definition hand_x (st : option (list N) * G) (x : pos Nd) : option (list N) * G * (B * pos Nd) :=
      let '(st1, b) := hand st x in (st1, (b, x)).

    Lemma hand_some xs : forall q g, exists q', map_accum hand_x (Some q, g) xs =
      let w := map_accum (call f) g (combine (seens seen q (map xseg xs)) (map xval xs)) in ((q', fst w), combine (snd w) xs).
    Proof.
      induction xs as [|x xs IH]; intros q g; cbn [map_accum map seens combine]; [eexists; reflexivity|].
      cbv zeta; change (call f g (seen q (xseg x), xval x)) with (f g (seen q (xseg x)) (xval x)); unfold hand_x at 1, hand; cbn [fst snd].
      destruct (f g (seen q (xseg x)) (xval x)) as [g1 b]; destruct (IH (xseg x) g1) as (q' & ->).
      destruct (map_accum (call f) g1 _) as [g2 outs]; exists q'; reflexivity.
    Qed.

    Lemma hand_all xs g : exists q', map_accum hand_x (None, g) xs = ((q', fst (calls_on g first xs)), combine (snd (calls_on g first xs)) xs).
    Proof.
      unfold calls_on; destruct xs as [|x xs]; cbn [map_accum map handed combine]; [eexists; reflexivity|].
      change (call f g (first, xval x)) with (f g first (xval x)); unfold hand_x at 1, hand; cbn [fst snd].
      destruct (f g first (xval x)) as [g1 b]; destruct (hand_some xs (xseg x) g1) as (q' & ->).
      destruct (map_accum (call f) g1 _) as [g2 outs]; exists q'; reflexivity.
    Qed.

    Lemma calls_len xs : forall q g, length (snd (map_accum (call f) g (combine (seens seen q (map xseg xs)) (map xval xs)))) = length xs.
    Proof.
      induction xs as [|x xs IH]; intros q g; cbn [map_accum map seens combine]; [reflexivity|].
      destruct (call f g _) as [g1 b]; specialize (IH (xseg x) g1); destruct (map_accum (call f) g1 _); cbn in *; rewrite IH; reflexivity.
    Qed.
    Lemma calls_on_len xs g : length (snd (calls_on g first xs)) = length xs.
    Proof.
      unfold calls_on; destruct xs as [|x xs]; cbn [map_accum map handed combine]; [reflexivity|].
      destruct (call f g _) as [g1 b]; pose proof (calls_len xs (xseg x) g1); destruct (map_accum (call f) g1 _); cbn in *; congruence.
    Qed.

    (** The tree that is built: the shape of the old one, the results in preorder. *)
    Lemma hand_tree t p ab g : exists t2, below p t2 /\ same_shape (tree_map fst t2) t /\
      preorder t2 = combine (snd (calls_on g first (preorder (annotate p ab t)))) (preorder (annotate p ab t)) /\
      preorder (tree_map fst t2) = snd (calls_on g first (preorder (annotate p ab t))).
    Proof.
      destruct (walk_map_accum hand_x (annotate p ab t) (None, g)) as (g' & t2 & E & Sh & Acc).
      destruct (hand_all (preorder (annotate p ab t)) g) as (q' & E2); rewrite E2 in Acc.
      pose proof (f_equal snd Acc) as Ep; cbn [snd] in Ep.
      exists t2; split; [|split; [|split]].
      - eapply (walk_below (fun st x => let '(st1, b) := hand st x in (st1, Keep b true)) t p ab (None, g)).
        rewrite (walk_ext _ (fun st x => let '(st1, b) := hand_x st x in (st1, Keep b true))); [rewrite E; reflexivity|].
        intros st x; unfold with_node, hand_x; destruct (hand st x); reflexivity.
      - unfold same_shape in *; rewrite tree_map_map, Sh; clear.
        unfold same_shape; revert p ab; induction t as [v ts IH] using tree_ind'; intros p ab; cbn; f_equal.
        generalize 0 as i; induction IH as [|t ts Ht _ IHl]; intros i; [reflexivity|]; rewrite mapi_cons; cbn [map]; rewrite Ht, IHl; reflexivity.
      - symmetry; exact Ep.
      - rewrite preorder_map, <- Ep.
        generalize (calls_on_len (preorder (annotate p ab t)) g); generalize (snd (calls_on g first (preorder (annotate p ab t)))) as l.
        generalize (preorder (annotate p ab t)) as xs; clear.
        induction xs as [|x xs IH]; intros [|b l] El; cbn in *; try discriminate; [reflexivity|]; rewrite IH by lia; reflexivity.
    Qed.

    Lemma hand_btree t p ab g : exists t2, bbelow p t2 /\ bsame_shape (btree_map fst t2) t /\
      preorder (flat t2) = combine (snd (calls_on g first (preorder (flat (bannotate p ab t))))) (preorder (flat (bannotate p ab t))) /\
      preorder (flat (btree_map fst t2)) = snd (calls_on g first (preorder (flat (bannotate p ab t)))).
    Proof.
      destruct (bwalk_map_accum hand_x (bannotate p ab t) (None, g)) as (g' & t2 & E & Sh & Acc).
      destruct (hand_all (preorder (flat (bannotate p ab t))) g) as (q' & E2); rewrite E2 in Acc.
      pose proof (f_equal snd Acc) as Ep; cbn [snd] in Ep.
      exists t2; split; [|split; [|split]].
      - eapply (bwalk_below (fun st x => let '(st1, b) := hand st x in (st1, Keep b true)) t p ab (None, g)).
        rewrite (bwalk_ext _ (fun st x => let '(st1, b) := hand_x st x in (st1, Keep b true))); [rewrite E; reflexivity|].
        intros st x; unfold with_node, hand_x; destruct (hand st x); reflexivity.
      - unfold bsame_shape in *; rewrite btree_map_map, Sh; clear.
        revert p ab; induction t as [v l r IHl IHr] using btree_ind'; intros p ab; cbn.
        destruct l as [l|], r as [r|]; cbn in *; rewrite ?IHl, ?IHr; reflexivity.
      - symmetry; exact Ep.
      - rewrite flat_btree_map, preorder_map, <- Ep.
        generalize (calls_on_len (preorder (flat (bannotate p ab t))) g); generalize (snd (calls_on g first (preorder (flat (bannotate p ab t))))) as l.
        generalize (preorder (flat (bannotate p ab t))) as xs; clear.
        induction xs as [|x xs IH]; intros [|b l] El; cbn in *; try discriminate; [reflexivity|]; rewrite IH by lia; reflexivity.
    Qed.
  End Walk.
End One.

Lemma over_rev_cons (x : N) l : exists y, rev (x :: l) = rev l ++ [y].
Proof. exists x; reflexivity. Qed.
Lemma over_rep_cons (x : N) l : exists y, repeat 1%N (length (x :: l)) = repeat 1%N (length l) ++ [y].
Proof. exists 1%N; cbn [length repeat]; apply repeat_cons. Qed.

Lemma removelast_map {A B} (h : A -> B) l : removelast (map h l) = map h (removelast l).
Proof. induction l as [|a [|b l] IH]; cbn in *; [reflexivity..|rewrite IH; reflexivity]. Qed.

(** The handed paths, in terms of the specification. *)
Lemma handed_stale seen st : (forall q p, seen (map wrap q) (map wrap p) = map wrap (st q p)) ->
  forall first ps, handed seen (map wrap first) (map (map wrap) ps) = map (map wrap) (stale_paths st first ps).
Proof. intros H first [|p ps]; cbn; [reflexivity|]; rewrite (seens_wrap seen st H); reflexivity. Qed.

Lemma map_xseg {Nd} (xs : list (pos Nd)) : map xseg xs = map (map wrap) (map pos_path xs).
Proof. rewrite map_map; reflexivity. Qed.

(** Small segments stay small. *)
Lemma in_stale q p i : In i (stale q p) -> In i q \/ In i p.
Proof.
  unfold stale; destruct (length q <? length p); [auto|]; intros H; apply in_app_or in H as [H|H]; [auto|left].
  rewrite <- (firstn_skipn (length p) q); apply in_or_app; auto.
Qed.
Lemma in_bstale q p i : In i (bstale q p) -> In i q \/ In i p \/ i = 1.
Proof.
  unfold bstale; destruct (length q <? length p); [auto|]; intros H; apply in_app_or in H as [H|H]; [auto|].
  apply repeat_spec in H; auto.
Qed.

Lemma stale_from_small (st : list nat -> list nat -> list nat) (ok : nat -> Prop) :
  (forall q p i, In i (st q p) -> In i q \/ In i p \/ ok i) ->
  forall ps q, Forall ok q -> Forall (Forall ok) ps -> Forall (Forall ok) (stale_from st q ps).
Proof.
  intros H ps; induction ps as [|p ps IH]; intros q Hq Hps; cbn; [constructor|].
  inversion Hps as [|? ? Hp Hps']; subst; constructor; [|apply IH; assumption].
  rewrite Forall_forall in *; intros i Hi; destruct (H _ _ _ Hi) as [Hi'|[Hi'|Hi']]; auto.
Qed.
Lemma stale_paths_small (st : list nat -> list nat -> list nat) (ok : nat -> Prop) :
  (forall q p i, In i (st q p) -> In i q \/ In i p \/ ok i) ->
  forall first ps, Forall ok first -> Forall (Forall ok) ps -> Forall (Forall ok) (stale_paths st first ps).
Proof.
  intros H first [|p ps] Hf Hps; cbn; [constructor|]; inversion Hps; subst; constructor; [exact Hf|].
  apply stale_from_small; assumption.
Qed.

Lemma wrap_all (l : list (list nat)) : Forall (Forall (fun i => (N.of_nat i <= usize_max)%N)) l -> map (map wrap) l = map (map N.of_nat) l.
Proof.
  intros H; apply map_ext_in; intros p Hp; apply map_ext_in; intros i Hi.
  rewrite Forall_forall in H; specialize (H p Hp); rewrite Forall_forall in H; apply wrap_small; auto.
Qed.

Section Trees.
  Context {Nd V B G : Type} (grow : nat -> nat).
  Hypothesis Hgrow : forall c, c < grow c.
  Context (f : G -> list N -> V -> G * B).
  Notation called := (fun (g : G) (pv : list N * V) => f g (fst pv) (snd pv)).

  Section Nary.
    Context (gvc : Nd -> V * list Nd) (nt : Nd -> tree Nd).
    Hypothesis H : node_tree gvc nt.
    Notation T := (fun p ab n => annotate p ab (nt n)).

    Lemma n_root p ab n : exists ts, annotate p ab (nt n) = TNode (mkPos p ab n) ts.
    Proof. rewrite (nt_unfold _ _ H n); cbn; eexists; reflexivity. Qed.
    Lemma n_push stack path (c : list Nd) : ninv stack path -> ninv (c :: stack) (usize_max :: path).
    Proof. unfold ninv; cbn; lia. Qed.
    Lemma n_init (path : list N) : ninv (@nil (list Nd)) path.
    Proof. unfold ninv; cbn; lia. Qed.

    Lemma map_path_items n g : ~ passes_depth (grow 0) (node_paths (nt n)) -> exists sv',
      items (map_path (vt_pipeline grow gvc n) (fun s => vec_slice (vt_path s)) (fun s => vec_read (vt_path s)) f g) pok_exact (vt_new n (vec_new 0), g)
        (combine (snd (calls_on gvc seen_n f g [] (preorder (positions (nt n))))) (preorder (positions (nt n))))
        (sv', fst (calls_on gvc seen_n f g [] (preorder (positions (nt n))))).
    Proof.
      intros Hp.
      apply (one_items grow gvc (fun l => l) (map Some) pt_body vt_body ninv (@rev N) T (fun P0 s0 => nary_sim gvc nt P0 s0 H)
        n_root nary_loop n_init n_push (@rev_length N) over_rev_cons seen_n seen_n_child seen_n_other (fun _ _ _ => eq_refl) f n g).
      rewrite map_xseg, removelast_map; apply Forall_forall; intros q Hq; apply in_map_iff in Hq as (p & <- & Hq); rewrite map_length.
      destruct (Nat.lt_ge_cases (length p) (grow 0)) as [Hl|Hl]; [exact Hl|].
      exfalso; apply Hp; apply Exists_exists; exists p; auto.
    Qed.

    Lemma map_path_ok n g : small_nodes gvc (nt n) -> ~ passes_depth (grow 0) (node_paths (nt n)) ->
      exists t' g', op_map_path grow f gvc g n ⇓ Ok (t', g') /\ same_shape t' (nt n) /\
      map_accum called g (combine (map (map N.of_nat) (stale_paths stale [] (node_paths (nt n)))) (map (nval gvc) (preorder (nt n)))) = (g', preorder t').
    Proof.
      intros Hs Hp; destruct (map_path_items n g Hp) as (sv' & Hit).
      destruct (hand_tree gvc seen_n f [] (nt n) [] [] g) as (t2 & Hb & Sh & Ep & Ef).
      fold (positions (nt n)) in Ep, Ef; rewrite <- Ep in Hit.
      exists (tree_map fst t2), (fst (calls_on gvc seen_n f g [] (preorder (positions (nt n))))); split; [|split; [exact Sh|]].
      - eapply conv_bind; [apply unwrap_fst_ok; apply (collect_ok _ pok_exact (fun p x Hx => proj2 (pok_exact_facts p x Hx)) (Some t2))|].
        + exact Hb.
        + cbn [opt_list flat_map]; rewrite app_nil_r; exact Hit.
        + now_conv.
      - rewrite Ef, <- surjective_pairing; unfold calls_on.
        rewrite map_xseg; change (@nil N) with (map wrap []); rewrite (handed_stale _ _ seen_n_wrap).
        fold (node_paths (nt n)); rewrite wrap_all.
        + assert (E : map (xval gvc) (preorder (positions (nt n))) = map (nval gvc) (preorder (nt n)))
            by (rewrite <- !preorder_map, <- (positions_val (nval gvc)); reflexivity).
          rewrite E; reflexivity.
        + apply stale_paths_small; [intros q p i Hi; destruct (in_stale _ _ _ Hi); auto|constructor|].
          unfold node_paths; apply Forall_forall; intros p Hpp; apply in_map_iff in Hpp as (x & <- & Hx).
          destruct (small_indexes gvc nt H n Hs [] [] x Hx) as (q & -> & Hq).
          eapply Forall_impl; [|exact Hq]; intros i Hi; cbn in Hi; lia.
    Qed.

    Lemma below_root t (x : pos Nd) : In x (tl (preorder (positions t))) -> 0 < length (pos_path x).
    Proof.
      destruct t as [v ts]; cbn [positions annotate preorder tl]; intros Hx; apply in_flat_map in Hx as (c & Hc & Hx).
      unfold positions in Hc; apply ProofsPath.in_mapi in Hc as (i & y & _ & ->); destruct (annotate_indexes _ _ _ _ Hx) as (q & -> & _); cbn; lia.
    Qed.

    Lemma map_path_ub n g : passes_depth (grow 0) (node_paths (nt n)) -> op_map_path grow f gvc g n ⇓ UB.
    Proof.
      intros Hp.
      destruct (one_blows grow gvc (fun l => l) (map Some) pt_body vt_body ninv (@rev N) T (fun P0 s0 => nary_sim gvc nt P0 s0 H)
        n_root nary_loop n_init n_push (@rev_length N) over_rev_cons Hgrow seen_n seen_n_child seen_n_other (fun _ _ _ => eq_refl) f n g)
        as (b & outs & l1 & l2 & E & El & Hb).
      { rewrite map_xseg, removelast_map; apply Exists_exists; apply Exists_exists in Hp as (p & Hp & Hl).
        exists (map wrap p); split; [apply in_map; exact Hp|rewrite map_length; exact Hl]. }
      apply bind_ub, bind_ub, bind_ub.
      inversion Hb as [|? ? ? i1 ? Hn Hpk Hb1]; subst.
      eapply loop_step.
      - eapply (body_some _ pok_exact (@length (tree B)) (@attach_top B) (fun st a _ => Ok (TNode a [] :: st)) xpath (fun x => length (pos_path x))
          (fun _ _ _ _ _ => eq_refl) (fun p x Hx => proj2 (pok_exact_facts p x Hx))); [exact Hn|exact Hpk|apply cl_done; cbn; lia|reflexivity].
      - eapply (blows_loop _ pok_exact (@length (tree B)) (@attach_top B) (fun st a _ => Ok (TNode a [] :: st)) xpath (fun x => length (pos_path x))
          (fun _ _ _ _ _ => eq_refl) (fun p x Hx => proj2 (pok_exact_facts p x Hx)) (fun _ => True) (fun x => 0 < length (pos_path x))); [|exact Hb1|exact Logic.I|].
        + intros st a x _ Hx; destruct (closes_some (length (pos_path x)) st Hx) as (st1 & Hc); exists st1; eexists; split; [exact Hc|split; [reflexivity|exact Logic.I]].
        + apply Forall_forall; intros [a x] Hx; apply in_combine_r in Hx; cbn [snd].
          apply (below_root (nt n)); unfold positions; rewrite E; apply in_or_app; auto.
    Qed.
  End Nary.

  Section Binary.
    Context (gvcb : Nd -> V * (option Nd * option Nd)) (bt : Nd -> btree Nd).
    Hypothesis H : node_btree gvcb bt.
    Notation T := (fun p ab n => flat (bannotate p ab (bt n))).

    Lemma b_root p ab n : exists ts, flat (bannotate p ab (bt n)) = TNode (mkPos p ab n) ts.
    Proof. rewrite (bt_unfold _ _ H n); cbn; eexists; reflexivity. Qed.
    Lemma b_push stack path (c : option Nd * option Nd) : binv stack path -> binv (pair_iter c :: stack) (usize_max :: path).
    Proof. destruct c; cbn; auto. Qed.
    Lemma b_init (path : list N) : binv (@nil (list (option Nd))) path.
    Proof. exact Logic.I. Qed.

    Lemma bmap_path_items n g : ~ passes_depth (grow 0) (bnode_paths (bt n)) -> exists sv',
      items (map_path (vtb_pipeline grow gvcb n) (fun s => vec_slice (vt_path s)) (fun s => vec_read (vt_path s)) f g) pok_exact (vt_new n (vec_new 0), g)
        (combine (snd (calls_on gvcb seen_b f g [] (preorder (flat (bpositions (bt n)))))) (preorder (flat (bpositions (bt n)))))
        (sv', fst (calls_on gvcb seen_b f g [] (preorder (flat (bpositions (bt n)))))).
    Proof.
      intros Hp.
      apply (one_items grow gvcb pair_iter (fun l => l) ptb_body vtb_body binv (fun l => repeat 1%N (length l)) T (fun P0 s0 => binary_sim gvcb bt P0 s0 H)
        b_root binary_loop b_init b_push (fun l => repeat_length 1%N (length l)) over_rep_cons seen_b seen_b_child seen_b_other (fun _ _ _ => eq_refl) f n g).
      rewrite map_xseg, removelast_map; apply Forall_forall; intros q Hq; apply in_map_iff in Hq as (p & <- & Hq); rewrite map_length.
      destruct (Nat.lt_ge_cases (length p) (grow 0)) as [Hl|Hl]; [exact Hl|].
      exfalso; apply Hp; apply Exists_exists; exists p; auto.
    Qed.

    Lemma bmap_path_ok n g : ~ passes_depth (grow 0) (bnode_paths (bt n)) ->
      exists t' g', bop_map_path grow f gvcb g n ⇓ Ok (t', g') /\ bsame_shape t' (bt n) /\
      map_accum called g (combine (map (map N.of_nat) (stale_paths bstale [] (bnode_paths (bt n)))) (map (nval gvcb) (preorder (flat (bt n))))) = (g', preorder (flat t')).
    Proof.
      intros Hp; destruct (bmap_path_items n g Hp) as (sv' & Hit).
      destruct (hand_btree gvcb seen_b f [] (bt n) [] [] g) as (t2 & Hb & Sh & Ep & Ef).
      fold (bpositions (bt n)) in Ep, Ef; rewrite <- Ep in Hit.
      exists (btree_map fst t2), (fst (calls_on gvcb seen_b f g [] (preorder (flat (bpositions (bt n)))))); split; [|split; [exact Sh|]].
      - eapply conv_bind; [apply unwrap_fst_ok; apply (bcollect_ok _ pok_exact (fun p x Hx => proj2 (pok_exact_facts p x Hx)) (fun p x Hx => proj1 (pok_exact_facts p x Hx)) (Some t2))|].
        + exact Hb.
        + cbn [opt_list option_map flat_map]; rewrite app_nil_r; exact Hit.
        + now_conv.
      - rewrite Ef, <- surjective_pairing; unfold calls_on.
        rewrite map_xseg; change (@nil N) with (map wrap []); rewrite (handed_stale _ _ seen_b_wrap).
        fold (bnode_paths (bt n)); rewrite wrap_all.
        + assert (E : map (xval gvcb) (preorder (flat (bpositions (bt n)))) = map (nval gvcb) (preorder (flat (bt n))))
            by (rewrite <- !preorder_map, <- !flat_btree_map, <- (bpositions_val (nval gvcb)); reflexivity).
          rewrite E; reflexivity.
        + apply stale_paths_small; [intros q p i Hi; destruct (in_bstale _ _ _ Hi) as [?|[?| ->]]; [auto..|right; right; unfold usize_max; lia]|constructor|].
          unfold bnode_paths; apply Forall_forall; intros p Hpp; apply in_map_iff in Hpp as (x & <- & Hx).
          destruct (bannotate_indexes (bt n) [] [] x Hx) as (q & -> & Hq).
          eapply Forall_impl; [|exact Hq]; intros i Hi; cbn in Hi; unfold usize_max; lia.
    Qed.

    Lemma bbelow_root t (x : pos Nd) : In x (tl (preorder (flat (bpositions t)))) -> 0 < length (pos_path x).
    Proof.
      destruct t as [v l r]; unfold bpositions; cbn [bannotate flat preorder tl]; intros Hx; apply in_flat_map in Hx as (c & Hc & Hx).
      apply in_app_or in Hc as [Hc|Hc]; [destruct l as [l|]|destruct r as [r|]]; cbn in Hc; try (destruct Hc; fail);
        destruct Hc as [<-|[]]; destruct (bannotate_indexes _ _ _ _ Hx) as (q & -> & _); cbn; lia.
    Qed.

    Lemma bmap_path_ub n g : passes_depth (grow 0) (bnode_paths (bt n)) -> bop_map_path grow f gvcb g n ⇓ UB.
    Proof.
      intros Hp.
      destruct (one_blows grow gvcb pair_iter (fun l => l) ptb_body vtb_body binv (fun l => repeat 1%N (length l)) T (fun P0 s0 => binary_sim gvcb bt P0 s0 H)
        b_root binary_loop b_init b_push (fun l => repeat_length 1%N (length l)) over_rep_cons Hgrow seen_b seen_b_child seen_b_other (fun _ _ _ => eq_refl) f n g)
        as (b & outs & l1 & l2 & E & El & Hb).
      { rewrite map_xseg, removelast_map; apply Exists_exists; apply Exists_exists in Hp as (p & Hp & Hl).
        exists (map wrap p); split; [apply in_map; exact Hp|rewrite map_length; exact Hl]. }
      apply bind_ub, bind_ub, bind_ub.
      inversion Hb as [|? ? ? i1 ? Hn Hpk Hb1]; subst.
      assert (Hpu : forall p (x : pos Nd), pok_exact p x -> forall (st : list (N * btree B)) a, bpush st a p = bpush st a (xpath x)) by (intros p x -> st a; reflexivity).
      eapply loop_step.
      - eapply (body_some _ pok_exact (@length (N * btree B)) (@battach_top B) bpush xpath (fun x => length (pos_path x))
          Hpu (fun p x Hx => proj2 (pok_exact_facts p x Hx))); [exact Hn|exact Hpk|apply cl_done; cbn; lia|reflexivity].
      - eapply (blows_loop _ pok_exact (@length (N * btree B)) (@battach_top B) bpush xpath (fun x => length (pos_path x))
          Hpu (fun p x Hx => proj2 (pok_exact_facts p x Hx)) (Forall sided) (fun x => 0 < length (pos_path x) /\ (last (xpath x) 0 = 0 \/ last (xpath x) 0 = 1)%N)); [|exact Hb1| |].
        + intros st a x Hst (Hx & Hl); destruct (bcloses_some (length (pos_path x)) st Hx Hst) as (st1 & Hc & Hs1); exists st1; eexists; split; [exact Hc|split; [reflexivity|]].
          constructor; [exact Hl|exact Hs1].
        + constructor; [left; reflexivity|constructor].
        + apply Forall_forall; intros [a x] Hx; apply in_combine_r in Hx; cbn [snd].
          assert (Hin : In x (tl (preorder (flat (bpositions (bt n)))))) by (unfold bpositions; rewrite E; apply in_or_app; auto).
          split; [apply (bbelow_root (bt n)); exact Hin|].
          assert (Hin' : In x (preorder (flat (bpositions (bt n))))) by (destruct (preorder (flat (bpositions (bt n)))); [destruct Hin|right; exact Hin]).
          destruct (bannotate_indexes (bt n) [] [] x Hin') as (q & Eq & Hq); cbn [app] in Eq.
          unfold xpath; rewrite Eq; clear -Hq; induction Hq as [|i q Hi _ IH]; [left; reflexivity|].
          destruct q as [|j q]; [|exact IH].
          cbn [map last]; destruct i as [|[|i]]; [left|right|lia]; reflexivity.
    Qed.
  End Binary.
End Trees.
