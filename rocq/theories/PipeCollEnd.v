(** * PipeCollEnd: the consuming iterators of collections (trees, fold_trees, fold_path) return one result per tree. *)
From Verif Require Import Prelim PrelimFacts Spec SpecFacts SpecPipe SpecPipeColl ModelNode NodeFacts ModelPre ModelPipe ModelPipeColl
  ProofsPlain PipeCore PipeEnd.

Section Consumer.
  Context {A X O C St : Type} (P : pipe A) (pok : list N -> X -> Prop).
  Context (start : C -> St) (must_close : St -> list N -> Res bool) (drained : St -> option C)
    (close_top : St -> Res (St + O * C)) (push : St -> A -> list N -> Res St).
  Context (len : St -> nat) (pth : X -> list N) (dep : X -> nat).
  Hypothesis Hmust : forall p x, pok p x -> forall st, must_close st p = Ok (dep x <? len st).
  Hypothesis Hpush : forall p x, pok p x -> forall st a, push st a p = push st a (pth x).
  Hypothesis len_push : forall st a p st', push st a p = Ok st' -> len st' = S (len st).
  Hypothesis len_close : forall st st', close_top st = Ok (inl st') -> len st = S (len st').
  Hypothesis len_start : forall c, len (start c) = 0.
  Hypothesis drained_start : forall c, drained (start c) = Some c.
  Hypothesis drained_not : forall st, 0 < len st -> drained st = None.
  Context (Dn : p_state P -> Prop).
  Hypothesis Hdone : forall i, Dn i -> exists i', (fun f => p_next P f i) ⇓ Ok (None, i') /\ Dn i'.

  Definition inner_top (st : St) : Res St :=
    match close_top st with Ok (inl st') => Ok st' | _ => Panic end.
  Lemma inner_top_inv st st' : inner_top st = Ok st' -> close_top st = Ok (inl st').
  Proof. unfold inner_top; destruct (close_top st) as [[s|o]| | |]; intros E; try discriminate; injection E as ->; reflexivity. Qed.

  Notation closes := (closes len inner_top).
  Notation att := (att inner_top push pth).
  Notation att_list := (att_list inner_top push pth).
  Notation body := (consume_body P must_close drained close_top push).
  Notation next := (consume_next P start must_close drained close_top push).

  Lemma len_inner st st' : inner_top st = Ok st' -> len st = S (len st').
  Proof. intros E; apply len_close, inner_top_inv, E. Qed.

  Lemma close_inner p x s s' : pok p x -> closes (dep x) s s' ->
    (fun f => loop (close_body must_close close_top p) f s) ⇓ Ok (inl s').
  Proof.
    intros Hp; induction 1 as [s Hs|s s1 s' Hs Ht _ IH].
    - apply loop_done, conv_eq; intros f; unfold close_body; rewrite (Hmust _ _ Hp), (proj2 (Nat.ltb_ge _ _)) by exact Hs; reflexivity.
    - eapply loop_step; [|exact IH]; apply conv_eq; intros f; unfold close_body.
      rewrite (Hmust _ _ Hp), (proj2 (Nat.ltb_lt _ _)) by exact Hs; cbn; rewrite (inner_top_inv _ _ Ht); reflexivity.
  Qed.

  Lemma close_root p x s st out : pok p x -> dep x = 0 -> closes 1 s st -> 0 < len st -> close_top st = Ok (inr out) ->
    (fun f => loop (close_body must_close close_top p) f s) ⇓ Ok (inr out).
  Proof.
    intros Hp Hd Hc Hl Ho; induction Hc as [s Hs|s s1 st Hs Ht _ IH].
    - apply loop_done, conv_eq; intros f; unfold close_body; rewrite (Hmust _ _ Hp), Hd, (proj2 (Nat.ltb_lt _ _)) by exact Hl.
      cbn; rewrite Ho; reflexivity.
    - eapply loop_step; [|exact (IH Hl Ho)]; apply conv_eq; intros f; unfold close_body.
      rewrite (Hmust _ _ Hp), Hd, (proj2 (Nat.ltb_lt _ _)) by lia; cbn; rewrite (inner_top_inv _ _ Ht); reflexivity.
  Qed.

  Lemma drain_root s st o c : closes 1 s st -> 0 < len st -> close_top st = Ok (inr (o, c)) ->
    (fun f => loop (drain_body drained close_top) f s) ⇓ Ok (Some o, c).
  Proof.
    intros Hc Hl Ho; induction Hc as [s Hs|s s1 st Hs Ht _ IH].
    - apply loop_done, conv_eq; intros f; unfold drain_body; rewrite drained_not by exact Hl; rewrite Ho; reflexivity.
    - eapply loop_step; [|exact (IH Hl Ho)]; apply conv_eq; intros f; unfold drain_body.
      rewrite drained_not by lia; rewrite (inner_top_inv _ _ Ht); reflexivity.
  Qed.

  Inductive csteps : p_state P * St -> p_state P * St -> Prop :=
  | cs_refl s : csteps s s
  | cs_step i S i1 S1 s' : (fun f => body f (i, None, S)) ⇓ Ok (inl (i1, None, S1)) -> csteps (i1, S1) s' -> csteps (i, S) s'.
  Lemma csteps_trans s s1 s' : csteps s s1 -> csteps s1 s' -> csteps s s'.
  Proof. induction 1; intros H'; [exact H'|econstructor; eauto]. Qed.
  Lemma csteps_loop i S i1 S1 r : csteps (i, S) (i1, S1) -> (fun f => loop body f (i1, None, S1)) ⇓ r ->
    (fun f => loop body f (i, None, S)) ⇓ r.
  Proof.
    intros Hs; remember (i, S) as a eqn:Ea; remember (i1, S1) as b eqn:Eb; revert i S Ea.
    induction Hs as [s|i0 S0 i2 S2 s' H1 _ IH]; intros i S Ea H.
    - subst s; injection Ea as <- <-; exact H.
    - injection Ea as -> ->; eapply loop_step; [exact H1|]; apply (IH Eb i2 S2 eq_refl H).
  Qed.

  (** One item that is not the root of a new tree, or the first one. *)
  Lemma citem_some ahead i S st a x i1 st1 :
    match ahead with None => (fun f => p_next P f i) ⇓ Ok (Some a, i1) | Some b => b = a /\ i1 = i end ->
    pok (p_path P i1) x -> closes (dep x) S st -> push st a (pth x) = Ok st1 ->
    (fun f => body f (i, ahead, S)) ⇓ Ok (inl (i1, None, st1)).
  Proof.
    intros Hn Hp Hc Hpu; unfold consume_body.
    eapply conv_bind with (a := (Some a, i1)).
    - destruct ahead as [b|]; [destruct Hn as [-> ->]; now_conv|exact Hn].
    - cbn; eapply conv_bind; [apply (close_inner _ _ _ _ Hp Hc)|]; cbn.
      rewrite (Hpush _ _ Hp), Hpu; now_conv.
  Qed.

  Lemma catt_list_steps ts :
    Forall (fun t => forall k S st st' i l2 iend, depth_ok dep k t -> closes k S st -> len st = k -> att t st = Ok st' ->
      items P pok i (preorder t ++ l2) iend ->
      exists i1 S1, items P pok i1 l2 iend /\ csteps (i, S) (i1, S1) /\ closes k S1 st' /\ len st' = k) ts ->
    forall k S st st' i l2 iend, Forall (depth_ok dep k) ts -> closes k S st -> len st = k -> att_list ts st = Ok st' ->
      items P pok i (flat_map preorder ts ++ l2) iend ->
      exists i1 S1, items P pok i1 l2 iend /\ csteps (i, S) (i1, S1) /\ closes k S1 st' /\ len st' = k.
  Proof.
    intros IH; induction IH as [|t ts' Ht _ IHl]; intros k S st st' i l2 iend Hd Hc Hl Ha Hi.
    - cbn in Ha, Hi; injection Ha as <-; exists i, S; repeat split; auto; constructor.
    - inversion Hd as [|? ? Hd1 Hd2]; subst.
      cbn in Ha; destruct (att t st) as [st1| | |] eqn:Ea; try discriminate; cbn in Ha.
      cbn in Hi; rewrite <- app_assoc in Hi.
      destruct (Ht _ _ _ _ _ _ _ Hd1 Hc eq_refl Ea Hi) as (i1 & S1 & Hi1 & Hs1 & Hc1 & Hl1).
      destruct (IHl _ _ _ _ _ _ _ Hd2 Hc1 Hl1 Ha Hi1) as (i2 & S2 & Hi2 & Hs2 & Hc2 & Hl2).
      exists i2, S2; repeat split; auto; eapply csteps_trans; eassumption.
  Qed.

  Lemma catt_steps t : forall k S st st' i l2 iend, depth_ok dep k t -> closes k S st -> len st = k -> att t st = Ok st' ->
    items P pok i (preorder t ++ l2) iend ->
    exists i1 S1, items P pok i1 l2 iend /\ csteps (i, S) (i1, S1) /\ closes k S1 st' /\ len st' = k.
  Proof.
    induction t as [[a x] ts IH] using tree_ind'; intros k S st st' i l2 iend Hd Hc Hl Ha Hi.
    apply depth_ok_node in Hd as [Hd Hds]; rewrite att_node in Ha.
    destruct (push st a (pth x)) as [st1| | |] eqn:Epu; try discriminate; cbn in Ha.
    destruct (att_list ts st1) as [st2| | |] eqn:Ea; try discriminate; cbn in Ha.
    cbn in Hi; inversion Hi as [|? ? ? i1 ? ? Hn Hp Hi1]; subst.
    assert (Hb := citem_some None i S st a x i1 st1 Hn Hp Hc Epu).
    pose proof (len_push _ _ _ _ Epu) as Hl1.
    destruct (catt_list_steps ts IH (Datatypes.S (dep x)) st1 st1 st2 i1 l2 iend) as (i2 & S2 & Hi2 & Hs2 & Hc2 & Hl2); auto.
    { apply cl_done; lia. }
    { lia. }
    pose proof (len_inner _ _ Ha) as Hl'.
    exists i2, S2; repeat split; [exact Hi2| | |lia].
    - eapply cs_step; [exact Hb|exact Hs2].
    - eapply closes_trans; [|exact Hc2|]; [lia|]; eapply cl_step; [|exact Ha|apply cl_done]; lia.
  Qed.

  (** What is still to come, given what has been read ahead. *)
  Definition pending (i : p_state P) (ahead : option A) (l : list (A * X)) : Prop :=
    exists iend, Dn iend /\
      match ahead with
      | None => items P pok i l iend
      | Some a => exists x l', l = (a, x) :: l' /\ pok (p_path P i) x /\ items P pok i l' iend
      end.

  Context {W : Type} (fl : W -> tree (A * X)) (good : W -> Prop) (res : C -> W -> C * O).
  Hypothesis Hres : forall c w, good w -> exists a x ts st1 st2, fl w = TNode (a, x) ts /\
    push (start c) a (pth x) = Ok st1 /\ att_list ts st1 = Ok st2 /\ close_top st2 = Ok (inr (snd (res c w), fst (res c w))).

  Lemma one_tree w ws i ahead c : good w -> depth_ok dep 0 (fl w) -> Forall (depth_ok dep 0) ws ->
    pending i ahead (flat_map preorder (fl w :: ws)) ->
    exists i' ahead', (fun f => next f (i, ahead, c)) ⇓ Ok (Some (snd (res c w)), (i', ahead', fst (res c w))) /\
      pending i' ahead' (flat_map preorder ws).
  Proof.
    intros Hg Hd Hds (iend & Hend & Hpe).
    destruct (Hres c w Hg) as (a & x & ts & st1 & st2 & Ew & Hpu & Ha & Ho); rewrite Ew in *.
    apply depth_ok_node in Hd as [Hd Hdk].
    pose proof (len_push _ _ _ _ Hpu) as Hl1; rewrite len_start in Hl1.
    cbn [flat_map preorder] in Hpe; change (flat_map preorder (TNode (a, x) ts :: ws)) with ((a, x) :: flat_map preorder ts ++ flat_map preorder ws) in Hpe.
    assert (Hfirst : exists i1, match ahead with None => (fun f => p_next P f i) ⇓ Ok (Some a, i1) | Some b => b = a /\ i1 = i end /\
        pok (p_path P i1) x /\ items P pok i1 (flat_map preorder ts ++ flat_map preorder ws) iend).
    { destruct ahead as [b|].
      - destruct Hpe as (y & l' & E & Hp & Hi); injection E as -> -> <-; exists i; auto.
      - inversion Hpe as [|? ? ? i1 ? ? Hn Hp Hi1]; subst; exists i1; auto. }
    destruct Hfirst as (i1 & Hn & Hp & Hi1).
    assert (Hc0 : closes (dep x) (start c) (start c)) by (apply cl_done; rewrite len_start; lia).
    pose proof (citem_some ahead i (start c) (start c) a x i1 st1 Hn Hp Hc0 Hpu) as Hb.
    destruct (catt_list_steps ts) with (k := 1) (S := st1) (st := st1) (st' := st2) (i := i1) (l2 := flat_map preorder ws) (iend := iend)
      as (i2 & S2 & Hi2 & Hs2 & Hc2 & Hl2); auto.
    { apply Forall_forall; intros t _; apply catt_steps. }
    { apply cl_done; lia. }
    assert (Hlast : exists i' ahead', (fun f => loop body f (i2, None, S2)) ⇓ Ok (Some (snd (res c w)), (i', ahead', fst (res c w))) /\
      pending i' ahead' (flat_map preorder ws)).
    { destruct ws as [|[[b y] us] ws].
      - inversion Hi2 as [? ? Hn2|]; subst; exists iend, None; split.
        + apply loop_done; unfold consume_body; eapply conv_bind; [exact Hn2|]; cbn.
          eapply conv_bind; [apply (drain_root _ _ _ _ Hc2 ltac:(lia) Ho)|]; now_conv.
        + destruct (Hdone iend Hend) as (iend' & Hn' & Hend'); exists iend'; split; [exact Hend'|]; apply it_nil; exact Hn'.
      - inversion Hds as [|? ? Hd1 _]; subst; apply depth_ok_node in Hd1 as [Hd1 _].
        cbn [flat_map preorder app] in Hi2 |- *; inversion Hi2 as [|? ? ? i3 ? ? Hn2 Hp2 Hi3]; subst.
        exists i3, (Some b); split.
        + apply loop_done; unfold consume_body; eapply conv_bind; [exact Hn2|]; cbn.
          eapply conv_bind; [apply (close_root _ _ _ _ _ Hp2 Hd1 Hc2 ltac:(lia) Ho)|]; now_conv.
        + exists iend; split; [exact Hend|]; exists y; eexists; split; [reflexivity|]; auto. }
    destruct Hlast as (i' & ahead' & Hl & Hpen); exists i', ahead'; split; [|exact Hpen].
    unfold consume_next; eapply loop_step; [exact Hb|]; eapply csteps_loop; [exact Hs2|exact Hl].
  Qed.

  Lemma no_tree i ahead c : pending i ahead [] -> exists i', (fun f => next f (i, ahead, c)) ⇓ Ok (None, (i', None, c)) /\ Dn i'.
  Proof.
    intros (iend & Hend & Hpe); destruct ahead as [a|]; [destruct Hpe as (x & l' & E & _); discriminate|].
    inversion Hpe as [? ? Hn|]; subst; exists iend; split; [|exact Hend].
    unfold consume_next; apply loop_done; unfold consume_body; eapply conv_bind; [exact Hn|]; cbn.
    eapply conv_bind with (a := (None, c)); [|now_conv].
    apply loop_done, conv_eq; intros f; unfold drain_body; rewrite drained_start; reflexivity.
  Qed.

  Lemma nth_seq {B} (o : option B) (l : list B) k : map (nth_error (opt_list o ++ l)) (seq 0 (S k)) =
    match o with Some b => Some b :: map (nth_error l) (seq 0 k) | None => map (nth_error l) (seq 0 (S k)) end.
  Proof. destruct o as [b|]; [|reflexivity]; cbn [opt_list app seq map]; rewrite <- seq_shift, map_map; reflexivity. Qed.

  (** All results in order, then [None] for ever; the closure has seen exactly the first [k] trees after [k] calls. *)
  Lemma consume_all k : forall ws i ahead c, Forall good ws -> Forall (fun w => depth_ok dep 0 (fl w)) ws -> pending i ahead (flat_map preorder (map fl ws)) ->
    exists i' ahead', calls next k (i, ahead, c) ⇓
        Ok (map (nth_error (snd (map_accum res c ws))) (seq 0 k), (i', ahead', fst (map_accum res c (firstn k ws)))) /\
      (length ws < k -> Dn i' /\ ahead' = None).
  Proof.
    induction k as [|k IH]; intros ws i ahead c Hg Hd Hp.
    - exists i, ahead; split; [cbn; now_conv|lia].
    - destruct ws as [|w ws].
      + destruct (no_tree i ahead c Hp) as (i1 & Hn & Hend).
        assert (Hp1 : pending i1 None (flat_map preorder (map fl []))).
        { destruct (Hdone i1 Hend) as (i2 & Hn2 & Hend2); exists i2; split; [exact Hend2|apply it_nil; exact Hn2]. }
        destruct (IH [] i1 None c Hg Hd Hp1) as (i2 & ah2 & Hc & He).
        exists i2, ah2; split.
        * cbn [calls]; eapply conv_bind; [exact Hn|]; cbn beta iota; eapply conv_bind; [exact Hc|]; cbn beta iota.
          apply conv_eq; intros f; cbn [seq map map_accum snd]; rewrite <- seq_shift, map_map.
          rewrite firstn_nil; cbn [map_accum snd fst nth_error firstn].
          rewrite (map_ext (nth_error []) (fun _ => None)) by (intros [|j]; reflexivity); reflexivity.
        * intros _; destruct k as [|k]; [|apply He; cbn; lia].
          cbn [calls] in Hc; destruct Hc as (F & HF); specialize (HF F (le_n _)); injection HF as <- <-; auto.
      + inversion Hg as [|? ? Hg1 Hg2]; inversion Hd as [|? ? Hd1 Hd2]; subst.
        destruct (one_tree w (map fl ws) i ahead c Hg1 Hd1 (proj2 (Forall_map _ _ _) Hd2) Hp) as (i1 & ah1 & Hn & Hp1).
        destruct (IH ws i1 ah1 (fst (res c w)) Hg2 Hd2 Hp1) as (i2 & ah2 & Hc & He).
        exists i2, ah2; split; [|intros Hk; apply He; cbn in Hk; lia].
        cbn [calls]; eapply conv_bind; [exact Hn|]; cbn beta iota; eapply conv_bind; [exact Hc|]; cbn beta iota.
        apply conv_eq; intros f; cbn [firstn map_accum]; destruct (res c w) as [c1 o]; cbn [fst snd].
        destruct (map_accum res c1 ws) as [c2 os], (map_accum res c1 (firstn k ws)) as [c3 os']; cbn [fst snd].
        change (o :: os) with (opt_list (Some o) ++ os); rewrite nth_seq; reflexivity.
  Qed.
End Consumer.
