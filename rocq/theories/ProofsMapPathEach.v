(** * ProofsMapPathEach: map_path_each, from the first tree to the first result. *)
From Verif Require Import Prelim PrelimFacts Spec SpecFacts SpecPipe SpecPipeColl SpecObs SpecMapPath ModelNode NodeFacts ModelPre ModelPipe ModelPipeColl
  ModelMapPath ProofsPlain Slots PipeCore PipeBase PipeChain PipeEnd ProofsPipe PipeFinal PipePure PipeSpecFacts PipeOps PipeCollEnd ProofsPipeColl PipeCollFinal
  ProofsMapPath ProofsMapPathEnd.
From Verif Require ProofsPath.

(** The loops leave the buffer where it is, and end with an empty stack. *)
Definition vbody_facts {Nd I} (vbody : nat -> list (list I) * vec -> Res (list (list I) * vec + option Nd * (list (list I) * vec))) : Prop :=
  forall f st p o st' p', loop vbody f (st, p) = Ok (o, (st', p')) -> v_id p' = v_id p /\ (o = None -> st' = []).

Lemma incr_id v v' : vec_incr_last v = Ok v' -> v_id v' = v_id v.
Proof. unfold vec_incr_last; destruct (v_len v); intros E; try discriminate; injection E as <-; reflexivity. Qed.

Lemma nary_facts {Nd} : vbody_facts (@vt_body Nd).
Proof.
  intros f; induction f as [|f IH]; intros st p o st' p' E; [discriminate|]; cbn [loop] in E.
  destruct st as [|[|n top] rest]; cbn [vt_body] in E.
  - injection E as <- <- <-; auto.
  - apply IH in E as [E1 E2]; split; [rewrite E1; reflexivity|exact E2].
  - destruct (vec_incr_last p) as [v| | |] eqn:Ev; try discriminate; cbn in E; injection E as <- <- <-.
    split; [apply incr_id; exact Ev|discriminate].
Qed.

Lemma scan_id {Nd} (top : list (option Nd)) : forall p found top' p', vt_scan top p = Ok (found, top', p') -> v_id p' = v_id p.
Proof.
  induction top as [|o top IH]; intros p found top' p' E; cbn [vt_scan] in E; [injection E as <- <- <-; reflexivity|].
  destruct (vec_incr_last p) as [v| | |] eqn:Ev; try discriminate; cbn [bindR] in E.
  destruct o as [n|]; [injection E as <- <- <-|apply IH in E; rewrite E]; apply incr_id; exact Ev.
Qed.

Lemma binary_facts {Nd} : vbody_facts (@vtb_body Nd).
Proof.
  intros f; induction f as [|f IH]; intros st p o st' p' E; [discriminate|]; cbn [loop] in E.
  destruct st as [|top rest]; cbn [vtb_body] in E.
  - injection E as <- <- <-; auto.
  - destruct (vt_scan top p) as [[[found top'] p1]| | |] eqn:Es; try discriminate; cbn [bindR] in E; apply scan_id in Es.
    destruct found as [n|].
    + injection E as <- <- <-; split; [exact Es|discriminate].
    + apply IH in E as [E1 E2]; split; [rewrite E1; exact Es|exact E2].
Qed.

(** ** The consumer meets freed memory *)
Section Blow.
  Context {A X O C St : Type} (P : pipe A) (pok : list N -> X -> Prop).
  Context (start : C -> St) (must_close : St -> list N -> Res bool) (drained : St -> option C)
    (close_top : St -> Res (St + O * C)) (push : St -> A -> list N -> Res St).
  Context (len : St -> nat) (pth : X -> list N) (dep : X -> nat).
  Hypothesis Hmust : forall p x, pok p x -> forall st, must_close st p = Ok (dep x <? len st).
  Hypothesis Hpush : forall p x, pok p x -> forall st a, push st a p = push st a (pth x).
  Context (good : St -> Prop) (okx : X -> Prop).
  Hypothesis Hgood : forall st a x, good st -> okx x ->
    exists st1 st2, closes len (inner_top close_top) (dep x) st st1 /\ push st1 a (pth x) = Ok st2 /\ good st2.

  Lemma blows_consume i l : blows P pok i l -> forall st, good st -> Forall (fun ax => okx (snd ax)) l ->
    (fun f => loop (consume_body P must_close drained close_top push) f (i, None, st)) ⇓ UB.
  Proof.
    induction 1 as [i Hn|i a x i1 l Hn Hp _ IH]; intros st Hg Hx.
    - destruct Hn as [F HF]; exists (S F); intros [|f] Hf; [lia|]; cbn [loop]; unfold consume_body at 1; rewrite HF by lia; reflexivity.
    - inversion Hx as [|? ? Hx1 Hx2]; subst; cbn [snd] in Hx1.
      destruct (Hgood st a x Hg Hx1) as (st1 & st2 & Hc & Hpu & Hg2).
      eapply loop_step; [|apply IH; [exact Hg2|exact Hx2]].
      eapply (citem_some P pok must_close drained close_top push len pth dep Hmust Hpush None); [exact Hn|exact Hp|exact Hc|exact Hpu].
  Qed.
End Blow.

Lemma items_rooted {A Nd} (P : pipe A) s l s' : items P (@pok_exact Nd) s l s' -> Forall (fun ax => rooted (snd ax)) l -> items P pok_exact1 s l s'.
Proof.
  induction 1 as [s s' Hn|s a x s1 l s' Hn Hp _ IH]; intros Hf; [apply it_nil; exact Hn|].
  inversion Hf; subst; eapply it_cons; [exact Hn|split; [exact Hp|assumption]|auto].
Qed.
Lemma blows_rooted {A Nd} (P : pipe A) s l : blows P (@pok_exact Nd) s l -> Forall (fun ax => rooted (snd ax)) l -> blows P pok_exact1 s l.
Proof.
  induction 1 as [s Hn|s a x s1 l Hn Hp _ IH]; intros Hf; [apply bl_now; exact Hn|].
  inversion Hf; subst; eapply bl_step; [exact Hn|split; [exact Hp|assumption]|auto].
Qed.

(** ** The collection's iterator around the one of the current tree *)
Section Each.
  Context {Nd V I C B G : Type} (grow : nat -> nat) (gv : Nd -> V * C) (into_iter : C -> list I) (sl : list I -> list (option Nd)).
  Variable pbody : nat -> list (list I) * list N -> Res (list (list I) * list N + option Nd * (list (list I) * list N)).
  Variable vbody : nat -> list (list I) * vec -> Res (list (list I) * vec + option Nd * (list (list I) * vec)).
  Variable inv : list (list I) -> list N -> Prop.
  Variable over : list N -> list N.
  Variable T : list nat -> list Nd -> Nd -> tree (pos Nd).
  Hypothesis Hsim : forall P0 s0, simulates (base_pipe gv into_iter pbody s0) (base_vis gv) pok_exact (base_R into_iter sl T P0).
  Hypothesis Hroot : forall p ab n, exists ts, T p ab n = TNode (mkPos p ab n) ts.
  Hypothesis Hloop : loop_rel inv over pbody vbody.
  Hypothesis Hinit : forall path, inv [] path.
  Hypothesis Hpush : forall stack path c, inv stack path -> inv (into_iter c :: stack) (usize_max :: path).
  Hypothesis over_len : forall l, length (over l) = length l.
  Hypothesis over_cons : forall x l, exists y, over (x :: l) = over l ++ [y].
  Hypothesis Hgrow : forall c, c < grow c.
  Variable seen : list N -> list N -> list N.
  Hypothesis seen_child : forall q p, length q < length p -> seen q p = q.
  Hypothesis seen_other : forall popped x x' p0, seen (rev (popped ++ x :: p0)) (rev (x' :: p0)) = rev (x' :: p0) ++ over popped.
  Hypothesis vbody_const : forall f f' s, vbody f s = vbody f' s.
  Hypothesis Hrooted : forall n x, In x (preorder (T [0] [] n)) -> rooted x.
  Hypothesis Hfacts : vbody_facts vbody.
  Hypothesis vbody_nil : forall f p, vbody f ([], p) = Ok (inr (None, ([], p))).
  Context (f : G -> list N -> V -> G * B).

  Notation vnext := (vt_next_with grow gv into_iter vbody).
  Definition cpipe (trees : list Nd) (g0 : G) : pipe B :=
    map_path (mkPipe (vctrack Nd I C) (vc_new trees) (vc_next grow vnext) vc_path vc_prune) vc_slice vc_read f g0.
  Notation MP s0 g0 := (mpipe grow gv into_iter vbody f s0 g0).

  (** The state after the end of a tree. *)
  Definition over_with (sv : vtrack Nd I C) : Prop := vt_root sv = None /\ vt_deck sv = None /\ vt_stack sv = [].
  Lemma vnext_none k sv sv' : vnext k sv = Ok (None, sv') -> over_with sv' /\ v_id (vt_path sv) <= v_id (vt_path sv').
  Proof.
    unfold vt_next_with; destruct (vt_root sv) as [r|]; [destruct (gv r); discriminate|].
    assert (Hid : forall x, v_id (vt_path sv) <= v_id (vec_push grow (vt_path sv) x))
      by (intros x; unfold vec_push; destruct (v_len (vt_path sv) <? v_cap (vt_path sv)); cbn; lia).
    destruct (vt_deck sv) as [c|].
    - destruct (loop vbody k _) as [[o [st' p']]| | |] eqn:El; cbn [bindR]; try discriminate.
      apply Hfacts in El as [E1 E2]; destruct o as [n|]; [destruct (gv n); discriminate|]; intros E; injection E as <-.
      split; [split; [reflexivity|split; [reflexivity|apply E2; reflexivity]]|cbn [vt_path]; rewrite E1; apply Hid].
    - destruct (loop vbody k _) as [[o [st' p']]| | |] eqn:El; cbn [bindR]; try discriminate.
      apply Hfacts in El as [E1 E2]; destruct o as [n|]; [destruct (gv n); discriminate|]; intros E; injection E as <-.
      split; [split; [reflexivity|split; [reflexivity|apply E2; reflexivity]]|cbn [vt_path]; rewrite E1; lia].
  Qed.
  Lemma vnext_over sv k : over_with sv -> vnext (S k) sv = Ok (None, sv).
  Proof.
    destruct sv as [r p d st]; intros (Er & Ed & Es); cbn in Er, Ed, Es; subst.
    unfold vt_next_with; cbn [vt_root vt_deck vt_stack vt_path loop]; rewrite vbody_nil; reflexivity.
  Qed.

  Lemma lift_some k ts c sv g b sv1 g1 s0 g0 t0 g00 : p_next (MP s0 g0) k (sv, g) = Ok (Some b, (sv1, g1)) ->
    p_next (cpipe t0 g00) (S k) (mkVc ts c (Some sv), g) = Ok (Some b, (mkVc ts c (Some sv1), g1)).
  Proof.
    cbn; unfold map_path_next, vc_next; cbn [fst snd p_next loop vc_body vc_cur vc_trees vc_count vc_slice].
    destruct (vnext k sv) as [[[v|] s1]| | |]; cbn [bindR]; try discriminate.
    cbn [vc_read vc_cur]; destruct (vec_read _ _) as [p| | |]; cbn [bindR]; try discriminate.
    destruct (f g p v); intros E; injection E as <- <- <-; reflexivity.
  Qed.
  Lemma lift_ub k ts c sv g s0 g0 t0 g00 : p_next (MP s0 g0) k (sv, g) = UB -> p_next (cpipe t0 g00) (S k) (mkVc ts c (Some sv), g) = UB.
  Proof.
    cbn; unfold map_path_next, vc_next; cbn [fst snd p_next loop vc_body vc_cur vc_trees vc_count vc_slice].
    destruct (vnext k sv) as [[[v|] s1]| | |]; cbn [bindR]; try discriminate; [|reflexivity].
    cbn [vc_read vc_cur]; destruct (vec_read _ _) as [p| | |]; cbn [bindR]; try discriminate; [|reflexivity].
    destruct (f g p v); discriminate.
  Qed.
  Lemma none_inv k sv g sv1 g1 s0 g0 : p_next (MP s0 g0) k (sv, g) = Ok (None, (sv1, g1)) -> vnext k sv = Ok (None, sv1) /\ g1 = g.
  Proof.
    cbn; unfold map_path_next; cbn [fst snd p_next].
    destruct (vnext k sv) as [[[v|] s1]| | |]; cbn [bindR]; try discriminate.
    - destruct (vec_read _ _) as [p| | |]; cbn [bindR]; try discriminate; destruct (f g p v); discriminate.
    - intros E; injection E as <- <-; auto.
  Qed.

  (** After the last tree: the end. *)
  Definition each_over (c : N) (s : vctrack Nd I C * G) : Prop := exists sv, fst s = mkVc [] c (Some sv) /\ over_with sv.
  Lemma each_ended c t0 g00 : ended (cpipe t0 g00) (each_over c).
  Proof.
    intros [s g] (sv & E & Ho); cbn in E; subst s; exists (mkVc [] c (Some sv), g); split; [|exists sv; auto].
    exists 2; intros [|[|k]] Hk; try lia; cbn [p_next cpipe map_path]; unfold map_path_next, vc_next; cbn [fst snd p_next loop vc_body vc_cur vc_trees vc_count].
    rewrite vnext_over by exact Ho; reflexivity.
  Qed.

  Lemma lift_items {X} (pok : list N -> X -> Prop) s0 g0 t0 g00 c s l s' : items (MP s0 g0) pok s l s' ->
    exists sv', items (cpipe t0 g00) pok (mkVc [] c (Some (fst s)), snd s) l (mkVc [] c (Some sv'), snd s') /\ over_with sv'.
  Proof.
    induction 1 as [s s' Hn|s a x s1 l s' Hn Hp _ IH].
    - destruct s as [sv g], s' as [sv' g']; destruct Hn as [F HF]; exists sv'.
      destruct (none_inv F sv g sv' g' s0 g0 (HF F (le_n F))) as [E0 ->]; split; [|apply (vnext_none F sv sv' E0)].
      apply it_nil; exists (S F); intros [|k] Hk; [lia|].
      destruct (none_inv k sv g sv' g s0 g0 (HF k ltac:(lia))) as [E _].
      cbn [p_next cpipe map_path fst snd]; unfold map_path_next, vc_next; cbn [fst snd p_next loop vc_body vc_cur vc_trees vc_count]; rewrite E; reflexivity.
    - destruct IH as (sv' & Hit & Ho); exists sv'; split; [|exact Ho].
      destruct s as [sv g], s1 as [sv1 g1]; destruct Hn as [F HF].
      eapply (it_cons (cpipe t0 g00)) with (s1 := (mkVc [] c (Some sv1), g1)); [|exact Hp|exact Hit].
      exists (S F); intros [|k] Hk; [lia|]; cbn [fst snd]; apply (lift_some k [] c sv g a sv1 g1 s0 g0); apply HF; lia.
  Qed.

  (** Freed memory, inside a tree. *)
  Lemma lift_blows {X} (pok : list N -> X -> Prop) s0 g0 t0 g00 ts c s l : blows (MP s0 g0) pok s l ->
    blows (cpipe t0 g00) pok (mkVc ts c (Some (fst s)), snd s) l.
  Proof.
    induction 1 as [s Hn|s a x s1 l Hn Hp _ IH]; destruct s as [sv g]; destruct Hn as [F HF].
    - apply bl_now; exists (S F); intros [|k] Hk; [lia|]; apply (lift_ub k ts c sv g s0 g0); apply HF; lia.
    - destruct s1 as [sv1 g1]; eapply (bl_step (cpipe t0 g00)) with (s1 := (mkVc ts c (Some sv1), g1)); [|exact Hp|exact IH].
      exists (S F); intros [|k] Hk; [lia|]; cbn [fst snd]; apply (lift_some k ts c sv g a sv1 g1 s0 g0); apply HF; lia.
  Qed.

  (** Freed memory, on moving to the next tree. *)
  Lemma next_tree_blows {X} (pok : list N -> X -> Prop) s0 g0 t0 g00 t ts c c' s l s' : checked_succ c = Ok c' ->
    (forall p x, pok p x -> p <> []) -> 0 < v_len (vt_path (fst s)) -> items (MP s0 g0) pok s l s' ->
    blows (cpipe t0 g00) pok (mkVc (t :: ts) c (Some (fst s)), snd s) l.
  Proof.
    intros Hc Hpok Hlen Hit; revert Hlen; induction Hit as [s s' Hn|s a x s1 l s' Hn Hp _ IH]; intros Hlen.
    - destruct s as [sv g], s' as [sv' g']; destruct Hn as [F HF]; apply bl_now; exists (S (S F)); intros [|[|k]] Hk; try lia.
      destruct (none_inv (S k) sv g sv' g' s0 g0 (HF (S k) ltac:(lia))) as [E _].
      destruct (vnext_none _ _ _ E) as [_ Hid].
      cbn [p_next cpipe map_path fst snd] in *; unfold map_path_next, vc_next; cbn [fst snd p_next loop vc_body vc_cur vc_trees vc_count vc_slice]; rewrite E.
      cbn [bindR vc_take]; rewrite Hc; cbn [bindR vc_body vc_cur vc_trees vc_count]; unfold vt_next_with; cbn [vt_new vt_root].
      destruct (gv t) as [v ch]; cbn [bindR vc_read vc_cur vt_path fresh_id].
      unfold vec_slice, vec_read; cbn [fst snd]; destruct (v_len (vt_path sv)); [lia|].
      rewrite (proj2 (Nat.eqb_neq _ _)); [reflexivity|cbn; lia].
    - destruct s as [sv g], s1 as [sv1 g1]; destruct Hn as [F HF].
      eapply (bl_step (cpipe t0 g00)) with (s1 := (mkVc (t :: ts) c (Some sv1), g1)); [|exact Hp|].
      + exists (S F); intros [|k] Hk; [lia|]; cbn [fst snd]; apply (lift_some k (t :: ts) c sv g a sv1 g1 s0 g0); apply HF; lia.
      + apply IH; cbn [fst].
        pose proof (Hpok _ _ Hp) as Hne; cbn in Hne; unfold vec_list in Hne.
        destruct (v_len (vt_path sv1)); [exfalso; apply Hne; reflexivity|lia].
  Qed.

  (** *** From the beginning *)
  Notation calls_on := (calls_on gv seen f).
  Notation paths n := (map xseg (preorder (T [0] [] n))).

  Lemma first_call n ts g : exists s1 s' sv1,
    (fun k => p_next (cpipe (n :: ts) g) k (vc_new (n :: ts), g)) ⇓
      Ok (Some (snd (f g [] (nval gv n))), (mkVc ts 1%N (Some sv1), fst (f g [] (nval gv n)))) /\
    items (base_pipe gv into_iter pbody (pt_new n (map wrap [0]))) pok_exact s1 (map (valued gv) (tl (preorder (T [0] [] n)))) s' /\
    rel inv (grow 0) 1 sv1 s1 /\ pt_root s1 = None /\ pt_deck s1 <> None /\ pt_path s1 = rev (map wrap [0]).
  Proof.
    destruct (after_root grow gv into_iter sl pbody vbody inv T Hsim Hroot Hinit vbody_const [0] n [] (grow 0) 1)
      as (s1 & s' & sv1 & Hv & Hi & Hrel & Hr & Hd & Ep & Hread).
    exists s1, s', sv1; split; [|auto].
    destruct Hv as [F HF]; exists (S (S F)); intros [|[|k]] Hk; try lia.
    cbn [p_next cpipe map_path]; unfold map_path_next, vc_next, vc_new; cbn [fst snd p_next loop vc_body vc_cur vc_trees vc_count vc_take fresh_id].
    replace (checked_succ 0) with (Ok 1%N) by reflexivity; cbn [bindR vc_body vc_cur vc_trees vc_count].
    change (vec_push grow (vec_new 0) 0%N) with (vec_of (rev (map wrap [0])) [] (grow 0) 1).
    specialize (HF k ltac:(lia)); rewrite HF; cbn [bindR vc_slice vc_read vc_cur vec_read snd].
    destruct (f g [] (nval gv n)); reflexivity.
  Qed.

  Lemma each_one_items n g : Forall (fun q => length q < grow 0) (removelast (paths n)) ->
    exists sv', items (cpipe [n] g) pok_exact (p_init (cpipe [n] g))
      (combine (snd (calls_on g [] (preorder (T [0] [] n)))) (preorder (T [0] [] n)))
      (mkVc [] 1%N (Some sv'), fst (calls_on g [] (preorder (T [0] [] n)))) /\ over_with sv'.
  Proof.
    intros Hf; destruct (first_call n [] g) as (s1 & s' & sv1 & Hv & Hi & Hrel & Hr & Hd & Ep).
    destruct (Hroot [0] [] n) as (ts & ET); rewrite ET in *; cbn [preorder tl map] in *.
    unfold ProofsMapPathEnd.calls_on; cbn [map handed combine map_accum fst snd].
    change (xval gv (mkPos [0] [] n)) with (nval gv n) in *.
    change (call f g ([], nval gv n)) with (f g [] (nval gv n)).
    pose proof (mp_items grow gv into_iter pbody vbody inv over Hloop Hpush over_len over_cons seen seen_child seen_other vbody_const f
      (vt_new n (vec_new 0)) g _ _ _ _ Hi (grow 0) 1 sv1 (fst (f g [] (nval gv n))) Hrel Hr Hd) as M.
    rewrite Ep, valued_seg, valued_fst, valued_snd in M.
    change (rev (rev (map wrap [0]))) with (xseg (mkPos [0] [] n)) in M.
    destruct M as (sv2 & Hit); [left; reflexivity|exact Hf|].
    destruct (lift_items _ _ _ [n] g 1%N _ _ _ Hit) as (sv' & Hit' & Ho); cbn [fst snd] in Hit'.
    destruct (f g [] (nval gv n)) as [g1 b]; cbn [fst snd] in *.
    destruct (map_accum (call f) g1 _) as [g2 outs]; cbn [fst snd combine] in Hit' |- *.
    exists sv'; split; [|exact Ho]; eapply it_cons; [exact Hv| |exact Hit'].
    cbn [p_path cpipe map_path fst vc_path vc_cur]; destruct Hrel as (_ & _ & _ & (lft & ->) & _); rewrite vec_list_of, Ep; reflexivity.
  Qed.

  Lemma each_blows n ts g : ts <> [] \/ Exists (fun q => grow 0 <= length q) (removelast (paths n)) ->
    exists b l, incl (map snd l) (tl (preorder (T [0] [] n))) /\
      blows (cpipe (n :: ts) g) pok_exact1 (p_init (cpipe (n :: ts) g)) ((b, mkPos [0] [] n) :: l).
  Proof.
    intros Hor; destruct (first_call n ts g) as (s1 & s' & sv1 & Hv & Hi & Hrel & Hr & Hd & Ep).
    assert (Hrt : forall l : list (B * pos Nd), incl (map snd l) (tl (preorder (T [0] [] n))) -> Forall (fun ax => rooted (snd ax)) l).
    { intros l Hl; apply Forall_forall; intros ax Hax; apply (Hrooted n).
      assert (Hin : In (snd ax) (tl (preorder (T [0] [] n)))) by (apply Hl, in_map, Hax).
      destruct (preorder (T [0] [] n)); [destruct Hin|right; exact Hin]. }
    destruct (Hroot [0] [] n) as (us & ET); rewrite ET in *; cbn [preorder tl map] in *.
    assert (Hp0 : pok_exact1 (p_path (cpipe (n :: ts) g) (mkVc ts 1%N (Some sv1), fst (f g [] (nval gv n)))) (mkPos [0] [] n)).
    { split; [|discriminate].
      cbn [p_path cpipe map_path fst vc_path vc_cur]; destruct Hrel as (_ & _ & _ & (lft & ->) & _); rewrite vec_list_of, Ep; reflexivity. }
    set (ps := map xseg (flat_map preorder us)) in *.
    assert (Hdec : {Exists (fun q => grow 0 <= length q) (removelast (xseg (mkPos [0] [] n) :: ps))} +
                   {~ Exists (fun q => grow 0 <= length q) (removelast (xseg (mkPos [0] [] n) :: ps))})
      by (apply Exists_dec; intros q; apply le_dec).
    destruct Hdec as [Hex|Hno].
    - destruct (mp_blows grow gv into_iter pbody vbody inv over Hloop Hpush over_len over_cons Hgrow seen seen_child seen_other vbody_const f
        (vt_new n (vec_new 0)) g _ _ _ _ Hi (grow 0) 1 sv1 (fst (f g [] (nval gv n))) Hrel Hr Hd) as (outs & l1 & l2 & E & Hl & Hb).
      { left; reflexivity. }
      { rewrite Ep, valued_seg; exact Hex. }
      apply map_eq_app in E as (m1 & m2 & Eu & <- & <-).
      rewrite valued_snd in Hb.
      assert (Hin : incl (map snd (combine outs m1)) (flat_map preorder us)).
      { intros x Hx; apply in_map_iff in Hx as ([o y] & <- & Hy); apply in_combine_r in Hy; rewrite Eu; apply in_or_app; auto. }
      exists (snd (f g [] (nval gv n))), (combine outs m1); split; [exact Hin|].
      eapply bl_step; [exact Hv|exact Hp0|]; exact (lift_blows _ _ _ (n :: ts) g ts 1%N _ _ (blows_rooted _ _ _ Hb (Hrt _ Hin))).
    - destruct Hor as [Hts|Hex]; [|contradiction]; destruct ts as [|t ts]; [congruence|clear Hts].
      pose proof (mp_items grow gv into_iter pbody vbody inv over Hloop Hpush over_len over_cons seen seen_child seen_other vbody_const f
        (vt_new n (vec_new 0)) g _ _ _ _ Hi (grow 0) 1 sv1 (fst (f g [] (nval gv n))) Hrel Hr Hd) as M.
      rewrite Ep, valued_seg, valued_fst, valued_snd in M.
      change (rev (rev (map wrap [0]))) with (xseg (mkPos [0] [] n)) in M.
      destruct M as (sv2 & Hit); [left; reflexivity| |].
      { apply Forall_forall; intros q Hq; destruct (Nat.lt_ge_cases (length q) (grow 0)) as [Hl|Hl]; [exact Hl|].
        exfalso; apply Hno; apply Exists_exists; exists q; auto. }
      match type of Hit with items _ _ _ (combine ?o ?m) _ => assert (Hin : incl (map snd (combine o m)) (flat_map preorder us)) end.
      { intros x Hx; apply in_map_iff in Hx as ([o y] & <- & Hy); apply in_combine_r in Hy; exact Hy. }
      exists (snd (f g [] (nval gv n))); eexists; split; [exact Hin|eapply bl_step; [exact Hv|exact Hp0|]].
      refine (next_tree_blows _ _ _ (n :: t :: ts) g t ts 1%N 2%N _ _ _ eq_refl _ _ (items_rooted _ _ _ _ Hit (Hrt _ Hin))).
      + intros p x [Hp Hx] ->; apply Hx; unfold pok_exact in Hp; symmetry in Hp; apply map_eq_nil in Hp; exact Hp.
      + cbn [fst]; destruct Hrel as (_ & _ & _ & (lft & ->) & _); rewrite Ep; cbn; lia.
  Qed.
End Each.

Lemma in_annotate_rooted {A} (t : tree A) i ab x : In x (preorder (annotate [i] ab t)) -> rooted x.
Proof. intros Hx; destruct (annotate_indexes _ _ _ _ Hx) as (q & E & _); unfold rooted; rewrite E; discriminate. Qed.
Lemma in_bannotate_rooted {A} (t : btree A) i ab x : In x (preorder (flat (bannotate [i] ab t))) -> rooted x.
Proof. intros Hx; destruct (bannotate_indexes _ _ _ _ Hx) as (q & E & _); unfold rooted; rewrite E; discriminate. Qed.

Lemma paths_first {A} (t : tree A) i : map pos_path (preorder (annotate [i] [] t)) = map (cons i) (node_paths t).
Proof. unfold node_paths, positions; rewrite annotate_under, preorder_map, !map_map; reflexivity. Qed.
Lemma bpaths_first {A} (t : btree A) i : map pos_path (preorder (flat (bannotate [i] [] t))) = map (cons i) (bnode_paths t).
Proof. unfold bnode_paths, bpositions; rewrite bannotate_under, flat_btree_map, preorder_map, !map_map; reflexivity. Qed.

Lemma deep_below {A} (t : tree A) x : In x (tl (preorder (annotate [0] [] t))) -> 0 < cdepth x.
Proof.
  destruct t as [v ts]; cbn [annotate preorder tl]; intros Hx; apply in_flat_map in Hx as (c & Hc & Hx).
  apply ProofsPath.in_mapi in Hc as (i & y & _ & ->); destruct (annotate_indexes _ _ _ _ Hx) as (q & E & _); unfold cdepth; rewrite E; cbn; lia.
Qed.
Lemma bdeep_below {A} (t : btree A) x : In x (tl (preorder (flat (bannotate [0] [] t)))) ->
  0 < cdepth x /\ exists s, ModelPipeColl.last_seg (xpath x) = Ok s /\ (s = 0 \/ s = 1)%N.
Proof.
  intros Hx.
  assert (Hq : exists i q, pos_path x = [0] ++ i :: q /\ Forall (fun i => i <= 1) (i :: q)).
  { destruct t as [v l r]; cbn [bannotate flat preorder tl] in Hx; apply in_flat_map in Hx as (c & Hc & Hx).
    apply in_app_or in Hc as [Hc|Hc]; [destruct l as [l|]|destruct r as [r|]]; cbn in Hc; try (destruct Hc; fail);
      destruct Hc as [<-|[]]; destruct (bannotate_indexes _ _ _ _ Hx) as (q & -> & Hq); eexists _, q; (split; [reflexivity|]);
      constructor; try lia; exact Hq. }
  destruct Hq as (i & q & E & Hq); split; [unfold cdepth; rewrite E; cbn; lia|].
  assert (Hne : i :: q <> []) by discriminate.
  destruct (exists_last Hne) as (q0 & j & Ej); rewrite Ej in E, Hq.
  apply Forall_app in Hq as [_ Hj]; inversion Hj as [|? ? Hj1 _]; subst.
  exists (wrap j); split; [|destruct j as [|[|j]]; [left|right|lia]; reflexivity].
  unfold xpath; rewrite E, app_assoc; apply last_seg_snoc.
Qed.

Lemma closes_some1 {A} d (st : list (tree A)) : 0 < d -> exists st1, closes (@length (tree A)) (inner_top (@trees_close A)) d st st1.
Proof.
  intros Hd; remember (length st) as k eqn:Ek; revert st Ek; induction k as [k IH] using lt_wf_ind; intros st ->.
  destruct (Nat.le_gt_cases (length st) d) as [Hl|Hl]; [exists st; apply cl_done; exact Hl|].
  destruct st as [|p [|[v cs] rest]]; cbn in Hl; try lia.
  destruct (IH (length (TNode v (cs ++ [p]) :: rest)) ltac:(cbn; lia) _ eq_refl) as (st1 & H1).
  exists st1; eapply cl_step; [cbn; lia|reflexivity|exact H1].
Qed.

Lemma bcloses_some1 {A} d (st : list (N * btree A)) : 0 < d -> Forall sided (removelast st) ->
  exists st1, closes (@length (N * btree A)) (inner_top (@btrees_close A)) d st st1 /\ Forall sided (removelast st1).
Proof.
  intros Hd; remember (length st) as k eqn:Ek; revert st Ek; induction k as [k IH] using lt_wf_ind; intros st -> Hs.
  destruct (Nat.le_gt_cases (length st) d) as [Hl|Hl]; [exists st; split; [apply cl_done; exact Hl|exact Hs]|].
  destruct st as [|[s p] [|[s' [v l r]] rest]]; cbn in Hl; try lia.
  cbn [removelast] in Hs; inversion Hs as [|? ? H1 H2]; subst; unfold sided in H1; cbn in H1.
  assert (Ht : exists t', set_child s (BNode v l r) p = Ok t') by (destruct H1 as [->| ->]; eexists; reflexivity).
  destruct Ht as (t' & Ht).
  destruct (IH (length ((s', t') :: rest)) ltac:(cbn; lia) _ eq_refl) as (st1 & Hc1 & Hs1).
  { destruct rest; [constructor|]; cbn [removelast] in H2 |- *; inversion H2; subst; constructor; assumption. }
  exists st1; split; [|exact Hs1]; eapply cl_step; [cbn; lia| |exact Hc1].
  unfold inner_top; cbn [btrees_close]; rewrite Ht; reflexivity.
Qed.

Section Trees.
  Context {Nd V B G : Type} (grow : nat -> nat) (Hgrow : forall c, c < grow c) (f : G -> list N -> V -> G * B).
  Notation called := (fun (g : G) (pv : list N * V) => f g (fst pv) (snd pv)).

  Section Nary.
    Context (gvc : Nd -> V * list Nd) (nt : Nd -> tree Nd).
    Hypothesis H : node_tree gvc nt.
    Notation T := (fun p ab n => annotate p ab (nt n)).
    Notation P g ts := (map_path_each grow f gvc g ts).

    Lemma map_path_each_ub n ts g : ts <> [] \/ passes_depth (grow 0) (map (cons 0) (node_paths (nt n))) ->
      (fun k => trees_next (P g (n :: ts)) k (trees_new (P g (n :: ts)))) ⇓ UB.
    Proof.
      intros Hor.
      destruct (each_blows grow gvc (fun l => l) (map Some) pt_body vt_body ninv (@rev N) T (fun P0 s0 => nary_sim gvc nt P0 s0 H)
        (n_root gvc nt H) nary_loop n_init n_push (@rev_length N) over_rev_cons Hgrow seen_n seen_n_child seen_n_other (fun _ _ _ => eq_refl)
        (fun n x Hx => in_annotate_rooted _ _ _ _ Hx) nary_facts f n ts g) as (b & l & Hin & Hb).
      { destruct Hor as [Ho|Hp]; [left; exact Ho|right].
        rewrite map_xseg, paths_first, removelast_map; apply Exists_exists; apply Exists_exists in Hp as (p & Hp & Hl).
        exists (map wrap p); split; [apply in_map; exact Hp|rewrite map_length; exact Hl]. }
      unfold trees_next, consume_next, trees_new, consume_new.
      inversion Hb as [|? ? ? i1 ? Hn Hpk Hb1]; subst.
      assert (Hmust : forall p (x : pos Nd), pok_exact1 p x -> forall st : list (tree B), Ok (length p <=? length st) = Ok (cdepth x <? length st))
        by (intros p x Hx st; apply (must_len pok_exact1 (exact1_len1 Nd)); exact Hx).
      eapply loop_step.
      - eapply (citem_some _ pok_exact1 (fun st path => Ok (length path <=? length st)) is_nil (@trees_close B) (fun st item _ => Ok (TNode item [] :: st))
          (@length (tree B)) xpath cdepth Hmust (fun _ _ _ _ _ => eq_refl) None); [exact Hn|exact Hpk|apply cl_done; cbn; lia|reflexivity].
      - eapply (blows_consume _ pok_exact1 (fun st path => Ok (length path <=? length st)) is_nil (@trees_close B) (fun st item _ => Ok (TNode item [] :: st))
          (@length (tree B)) xpath cdepth Hmust (fun _ _ _ _ _ => eq_refl) (fun _ => True) (fun x => 0 < cdepth x)); [|exact Hb1|exact Logic.I|].
        + intros st a x _ Hx; destruct (closes_some1 (cdepth x) st Hx) as (st1 & Hc); exists st1; eexists; split; [exact Hc|split; [reflexivity|exact Logic.I]].
        + apply Forall_forall; intros ax Hx; apply (deep_below (nt n)); apply Hin, in_map, Hx.
    Qed.

    Lemma map_path_each_one n g : small_nodes gvc (nt n) -> ~ passes_depth (grow 0) (map (cons 0) (node_paths (nt n))) ->
      exists t' g', yields (trees_next (P g [n])) (trees_new (P g [n])) [t'] /\ same_shape t' (nt n) /\
      map_accum called g (combine (map (map N.of_nat) (stale_paths stale [] (map (cons 0) (node_paths (nt n))))) (map (nval gvc) (preorder (nt n)))) = (g', preorder t').
    Proof.
      intros Hs Hp.
      destruct (each_one_items grow gvc (fun l => l) (map Some) pt_body vt_body ninv (@rev N) T (fun P0 s0 => nary_sim gvc nt P0 s0 H)
        (n_root gvc nt H) nary_loop n_init n_push (@rev_length N) over_rev_cons seen_n seen_n_child seen_n_other (fun _ _ _ => eq_refl)
        nary_facts f n g) as (sv' & Hit & Ho).
      { rewrite map_xseg, paths_first, removelast_map; apply Forall_forall; intros q Hq; apply in_map_iff in Hq as (p & <- & Hq); rewrite map_length.
        destruct (Nat.lt_ge_cases (length p) (grow 0)) as [Hl|Hl]; [exact Hl|].
        exfalso; apply Hp; apply Exists_exists; exists p; auto. }
      destruct (hand_tree gvc seen_n f [] (nt n) [0] [] g) as (t2 & Hb & Sh & Ep & Ef).
      cbn beta in Hit; rewrite <- Ep in Hit.
      exists (tree_map fst t2), (fst (calls_on gvc seen_n f g [] (preorder (annotate [0] [] (nt n))))); split; [|split; [exact Sh|]].
      - intros k; set (g'' := fst (calls_on gvc seen_n f g [] (preorder (annotate [0] [] (nt n))))) in *.
        destruct (trees_all (P g [n]) pok_exact1 (exact1_len1 Nd) (each_over 1%N)
          (each_ended grow gvc (fun l => l) vt_body (fun _ _ => eq_refl) f 1%N [n] g) [t2] (mkVc [] 1%N (Some sv'), g'')
          (Forall_cons _ (ex_intro _ 0 Hb) (Forall_nil _)) (ex_intro _ sv' (conj eq_refl Ho))) with (k := k) as (i & ah & Hc & _).
        { cbn [flat_map]; rewrite app_nil_r; apply items_rooted; [exact Hit|].
          rewrite Ep; apply Forall_forall; intros [o x] Hx; apply in_combine_r in Hx; eapply in_annotate_rooted; exact Hx. }
        eexists; exact Hc.
      - rewrite Ef, <- surjective_pairing; unfold calls_on.
        rewrite map_xseg, paths_first; change (@nil N) with (map wrap []); rewrite (handed_stale _ _ seen_n_wrap).
        rewrite wrap_all.
        + assert (E : map (xval gvc) (preorder (annotate [0] [] (nt n))) = map (nval gvc) (preorder (nt n)))
            by (rewrite annotate_under, <- !preorder_map, tree_map_map, <- (positions_val (nval gvc)); reflexivity).
          rewrite E; reflexivity.
        + apply stale_paths_small; [intros q p i Hi; destruct (in_stale _ _ _ Hi); auto|constructor|].
          apply Forall_map; unfold node_paths; apply Forall_forall; intros p Hpp; apply in_map_iff in Hpp as (x & <- & Hx).
          constructor; [unfold usize_max; lia|].
          destruct (small_indexes gvc nt H n Hs [] [] x Hx) as (q & -> & Hq).
          eapply Forall_impl; [|exact Hq]; intros i Hi; cbn in Hi; lia.
    Qed.

    Lemma map_path_each_none g : yields (trees_next (P g [])) (trees_new (P g [])) [].
    Proof.
      assert (Hn : (fun fu => trees_next (P g []) fu (trees_new (P g []))) ⇓ Ok (None, trees_new (P g []))).
      { exists 2; intros [|[|k]] Hk; try lia; reflexivity. }
      intros k; exists (trees_new (P g [])); induction k as [|k IH]; [cbn; now_conv|].
      cbn [calls]; eapply conv_bind; [exact Hn|]; cbn beta iota; eapply conv_bind; [exact IH|]; cbn beta iota.
      apply conv_eq; intros fu; cbn [seq map nth_error]; rewrite <- seq_shift, map_map; do 3 f_equal.
      apply map_ext; intros [|]; reflexivity.
    Qed.
  End Nary.

  Section Binary.
    Context (gvcb : Nd -> V * (option Nd * option Nd)) (bt : Nd -> btree Nd).
    Hypothesis H : node_btree gvcb bt.
    Notation T := (fun p ab n => flat (bannotate p ab (bt n))).
    Notation P g ts := (bmap_path_each grow f gvcb g ts).

    Lemma bmap_path_each_ub n ts g : ts <> [] \/ passes_depth (grow 0) (map (cons 0) (bnode_paths (bt n))) ->
      (fun k => btrees_next (P g (n :: ts)) k (trees_new (P g (n :: ts)))) ⇓ UB.
    Proof.
      intros Hor.
      destruct (each_blows grow gvcb pair_iter (fun l => l) ptb_body vtb_body binv (fun l => repeat 1%N (length l)) T (fun P0 s0 => binary_sim gvcb bt P0 s0 H)
        (b_root gvcb bt H) binary_loop b_init b_push (fun l => repeat_length 1%N (length l)) over_rep_cons Hgrow seen_b seen_b_child seen_b_other (fun _ _ _ => eq_refl)
        (fun n x Hx => in_bannotate_rooted _ _ _ _ Hx) binary_facts f n ts g) as (b & l & Hin & Hb).
      { destruct Hor as [Ho|Hp]; [left; exact Ho|right].
        rewrite map_xseg, bpaths_first, removelast_map; apply Exists_exists; apply Exists_exists in Hp as (p & Hp & Hl).
        exists (map wrap p); split; [apply in_map; exact Hp|rewrite map_length; exact Hl]. }
      unfold btrees_next, consume_next, trees_new, consume_new.
      inversion Hb as [|? ? ? i1 ? Hn Hpk Hb1]; subst.
      assert (Hmust : forall p (x : pos Nd), pok_exact1 p x -> forall st : list (N * btree B), Ok (length p <=? length st) = Ok (cdepth x <? length st))
        by (intros p x Hx st; apply (must_len pok_exact1 (exact1_len1 Nd)); exact Hx).
      assert (Hpu : forall p (x : pos Nd), pok_exact1 p x -> forall (st : list (N * btree B)) a, btpush st a p = btpush st a (xpath x))
        by (intros p x Hx st a; rewrite (exact1_path _ _ _ Hx); reflexivity).
      eapply loop_step.
      - eapply (citem_some _ pok_exact1 (fun st path => Ok (length path <=? length st)) is_nil (@btrees_close B) btpush
          (@length (N * btree B)) xpath cdepth Hmust Hpu None); [exact Hn|exact Hpk|apply cl_done; cbn; lia|reflexivity].
      - eapply (blows_consume _ pok_exact1 (fun st path => Ok (length path <=? length st)) is_nil (@btrees_close B) btpush
          (@length (N * btree B)) xpath cdepth Hmust Hpu (fun st => Forall sided (removelast st))
          (fun x => 0 < cdepth x /\ exists s, ModelPipeColl.last_seg (xpath x) = Ok s /\ (s = 0 \/ s = 1)%N)); [|exact Hb1| |].
        + intros st a x Hst (Hx & s & Es & Hs); destruct (bcloses_some1 (cdepth x) st Hx Hst) as (st1 & Hc & Hs1).
          exists st1; eexists; split; [exact Hc|split; [unfold btpush; rewrite Es; reflexivity|]].
          destruct st1; [constructor|]; cbn [removelast] in Hs1 |- *; constructor; [exact Hs|exact Hs1].
        + constructor.
        + apply Forall_forall; intros ax Hx; apply (bdeep_below (bt n)); apply Hin, in_map, Hx.
    Qed.

    Lemma bmap_path_each_one n g : ~ passes_depth (grow 0) (map (cons 0) (bnode_paths (bt n))) ->
      exists t' g', yields (btrees_next (P g [n])) (trees_new (P g [n])) [t'] /\ bsame_shape t' (bt n) /\
      map_accum called g (combine (map (map N.of_nat) (stale_paths bstale [] (map (cons 0) (bnode_paths (bt n))))) (map (nval gvcb) (preorder (flat (bt n))))) = (g', preorder (flat t')).
    Proof.
      intros Hp.
      destruct (each_one_items grow gvcb pair_iter (fun l => l) ptb_body vtb_body binv (fun l => repeat 1%N (length l)) T (fun P0 s0 => binary_sim gvcb bt P0 s0 H)
        (b_root gvcb bt H) binary_loop b_init b_push (fun l => repeat_length 1%N (length l)) over_rep_cons seen_b seen_b_child seen_b_other (fun _ _ _ => eq_refl)
        binary_facts f n g) as (sv' & Hit & Ho).
      { rewrite map_xseg, bpaths_first, removelast_map; apply Forall_forall; intros q Hq; apply in_map_iff in Hq as (p & <- & Hq); rewrite map_length.
        destruct (Nat.lt_ge_cases (length p) (grow 0)) as [Hl|Hl]; [exact Hl|].
        exfalso; apply Hp; apply Exists_exists; exists p; auto. }
      destruct (hand_btree gvcb seen_b f [] (bt n) [0] [] g) as (t2 & Hb & Sh & Ep & Ef).
      cbn beta in Hit; rewrite <- Ep in Hit.
      exists (btree_map fst t2), (fst (calls_on gvcb seen_b f g [] (preorder (flat (bannotate [0] [] (bt n)))))); split; [|split; [exact Sh|]].
      - intros k; set (g'' := fst (calls_on gvcb seen_b f g [] (preorder (flat (bannotate [0] [] (bt n)))))) in *.
        destruct (btrees_all (P g [n]) pok_exact1 (exact1_len1 Nd) (each_over 1%N)
          (each_ended grow gvcb pair_iter vtb_body (fun _ _ => eq_refl) f 1%N [n] g) (exact1_path Nd) [t2] (mkVc [] 1%N (Some sv'), g'')
          (Forall_cons _ (ex_intro _ 0 Hb) (Forall_nil _)) (ex_intro _ sv' (conj eq_refl Ho))) with (k := k) as (i & ah & Hc & _).
        { cbn [flat_map map]; rewrite app_nil_r; apply items_rooted; [exact Hit|].
          rewrite Ep; apply Forall_forall; intros [o x] Hx; apply in_combine_r in Hx; eapply in_bannotate_rooted; exact Hx. }
        eexists; exact Hc.
      - rewrite Ef, <- surjective_pairing; unfold calls_on.
        rewrite map_xseg, bpaths_first; change (@nil N) with (map wrap []); rewrite (handed_stale _ _ seen_b_wrap).
        rewrite wrap_all.
        + assert (E : map (xval gvcb) (preorder (flat (bannotate [0] [] (bt n)))) = map (nval gvcb) (preorder (flat (bt n))))
            by (rewrite bannotate_under, <- !preorder_map, <- !flat_btree_map, btree_map_map, <- (bpositions_val (nval gvcb)); reflexivity).
          rewrite E; reflexivity.
        + apply stale_paths_small; [intros q p i Hi; destruct (in_bstale _ _ _ Hi) as [?|[?| ->]]; [auto..|right; right; unfold usize_max; lia]|constructor|].
          apply Forall_map; unfold bnode_paths; apply Forall_forall; intros p Hpp; apply in_map_iff in Hpp as (x & <- & Hx).
          constructor; [unfold usize_max; lia|].
          destruct (bannotate_indexes (bt n) [] [] x Hx) as (q & -> & Hq).
          eapply Forall_impl; [|exact Hq]; intros i Hi; cbn in Hi; unfold usize_max; lia.
    Qed.

    Lemma bmap_path_each_none g : yields (btrees_next (P g [])) (trees_new (P g [])) [].
    Proof.
      assert (Hn : (fun fu => btrees_next (P g []) fu (trees_new (P g []))) ⇓ Ok (None, trees_new (P g []))).
      { exists 2; intros [|[|k]] Hk; try lia; reflexivity. }
      intros k; exists (trees_new (P g [])); induction k as [|k IH]; [cbn; now_conv|].
      cbn [calls]; eapply conv_bind; [exact Hn|]; cbn beta iota; eapply conv_bind; [exact IH|]; cbn beta iota.
      apply conv_eq; intros fu; cbn [seq map nth_error]; rewrite <- seq_shift, map_map; do 3 f_equal.
      apply map_ext; intros [|]; reflexivity.
    Qed.
  End Binary.
End Trees.
