(** * Proofs for the plain iterators (no ancestors, no context). *)
From Verif Require Import Prelim PrelimFacts Spec SpecFacts ModelNode NodeFacts ModelBfs ModelPre ModelPost ModelIn.

Ltac now_conv := apply conv_eq; intros ?; reflexivity.

Section Plain.
  Context {Nd V : Type} (gvc : Nd -> V * list Nd) (nt : Nd -> tree Nd).
  Hypothesis Hnt : node_tree gvc nt.
  Local Notation value := (nval gvc).
  Local Notation kids := (nkids gvc).

  (** *** Preorder *)
  Definition fpre (n : Nd) := map value (preorder (nt n)).

  Lemma pre_unfold n : fpre n = value n :: flat_map fpre (kids n).
  Proof.
    unfold fpre; rewrite (nt_unfold _ _ Hnt n); cbn [preorder map]; f_equal.
    rewrite flat_map_map, map_flat_map; reflexivity.
  Qed.

  Definition pre_R (s : pre_iter Nd) (l : list V) : Prop :=
    l = flat_map fpre (opt_list (pre_root s)) ++ flat_map fpre (concat (pre_stack s)).

  Lemma pre_loop stack :
    exists stack', (fun f => loop (@pre_next_body Nd) f stack) ⇓ Ok (hd_error (concat stack), stack') /\
                   concat stack' = tl (concat stack).
  Proof.
    induction stack as [|top rest IH].
    - exists []; split; [apply loop_done; now_conv|reflexivity].
    - destruct top as [|n top].
      + destruct IH as (stack' & IH & E).
        exists stack'; split; [|exact E].
        eapply loop_step; [now_conv|exact IH].
      + exists (top :: rest); split; [apply loop_done; now_conv|reflexivity].
  Qed.

  Lemma pre_step : step_inv (pre_next gvc) pre_R.
  Proof.
    intros [r stack] l H; unfold pre_R in H; cbn in H; subst l; unfold pre_next; cbn.
    destruct r as [n|]; cbn.
    - exists (mkPre None (kids n :: stack)); split.
      + rewrite (gv_eq gvc), app_nil_r, pre_unfold; now_conv.
      + unfold pre_R; cbn; rewrite app_nil_r, pre_unfold; cbn; rewrite flat_map_app; reflexivity.
    - destruct (pre_loop stack) as (stack' & Hl & E).
      destruct (concat stack) as [|n ns]; cbn in E, Hl |- *.
      + exists (mkPre None stack'); split.
        * eapply conv_bind; [exact Hl|now_conv].
        * unfold pre_R; cbn; rewrite E; reflexivity.
      + exists (mkPre None (kids n :: stack')); split.
        * eapply conv_bind; [exact Hl|]; cbn; rewrite (gv_eq gvc), pre_unfold; now_conv.
        * unfold pre_R; cbn; rewrite pre_unfold, flat_map_app, E; reflexivity.
  Qed.

  Lemma pre_yields n : yields (pre_next gvc) (pre_new n) (map value (preorder (nt n))).
  Proof.
    apply (step_inv_yields _ _ pre_step); unfold pre_R; cbn; rewrite !app_nil_r; reflexivity.
  Qed.

  (** *** Postorder *)
  Definition fpost (n : Nd) := map value (postorder (nt n)).

  Lemma post_unfold n : fpost n = flat_map fpost (kids n) ++ [value n].
  Proof.
    unfold fpost; rewrite (nt_unfold _ _ Hnt n); cbn [postorder]; rewrite map_app; f_equal.
    rewrite flat_map_map, map_flat_map; reflexivity.
  Qed.

  (** What is still to come from the stacks: the items above the stack's own count are already waiting. *)
  Fixpoint post_out (items : list V) (stack : list (list Nd)) : list V :=
    match stack, items with
    | top :: rest, v :: items' => flat_map fpost top ++ v :: post_out items' rest
    | _, _ => []
    end.

  Definition post_R (s : post_iter Nd V) (l : list V) : Prop :=
    length (po_items s) = length (po_stack s) /\
    match po_root s with
    | Some n => po_items s = [] /\ l = fpost n
    | None => l = post_out (po_items s) (po_stack s)
    end.

  Lemma post_descend_forest (Q : Nd -> Prop) : forall ns, Forall Q ns -> Forall Q ns.
  Proof. auto. Qed.

  (** Descending from any node's children reaches the first yield. *)
  Lemma post_down : forall t n, nt n = t -> forall items stack, length items = length stack ->
    exists s', (fun f => loop (post_next_body gvc) f (mkPost None (value n :: items) (kids n :: stack)))
                 ⇓ Ok (hd_error (fpost n), s') /\
               post_R s' (tl (fpost n) ++ post_out items stack).
  Proof.
    induction t as [n0 ts IH] using tree_ind'; intros n En items stack Hlen.
    assert (Hk : map nt (kids n) = ts) by (rewrite (nt_unfold _ _ Hnt) in En; injection En as _ E; exact E).
    rewrite post_unfold.
    destruct (kids n) as [|c cs] eqn:Ek.
    - cbn. exists (mkPost None items stack); split; [apply loop_done; now_conv|].
      split; [exact Hlen|reflexivity].
    - cbn in Hk; subst ts; inversion IH as [|? ? IHc _]; subst.
      destruct (IHc c eq_refl (value n :: items) (cs :: stack)) as (s' & Hs & HR).
      { cbn; lia. }
      exists s'; split.
      + eapply loop_step.
        * apply conv_eq; intros f; cbn; rewrite (gv_eq gvc); reflexivity.
        * cbn [flat_map]; rewrite <- !app_assoc.
          assert (E : hd_error (fpost c ++ flat_map fpost cs ++ [value n]) = hd_error (fpost c)).
          { rewrite (post_unfold c); destruct (flat_map fpost (kids c)); reflexivity. }
          rewrite E; exact Hs.
      + cbn [flat_map post_out] in *.
        replace (tl ((fpost c ++ flat_map fpost cs) ++ [value n]) ++ post_out items stack)
          with (tl (fpost c) ++ flat_map fpost cs ++ value n :: post_out items stack); [exact HR|].
        rewrite (post_unfold c).
        destruct (flat_map fpost (kids c)) as [|x xs]; cbn; rewrite <- !app_assoc; reflexivity.
  Qed.

  Lemma post_step : step_inv (post_next gvc) post_R.
  Proof.
    intros [r items stack] l [Hlen H]; cbn in Hlen, H; unfold post_next; cbn.
    destruct r as [n|].
    - destruct H as [-> ->]; destruct stack; [|discriminate].
      destruct (post_down (nt n) n eq_refl [] [] eq_refl) as (s' & Hs & HR).
      exists s'; split.
      + eapply loop_step; [|exact Hs]; apply conv_eq; intros f; cbn; rewrite (gv_eq gvc); reflexivity.
      + cbn in HR; rewrite app_nil_r in HR; exact HR.
    - subst l; destruct stack as [|top rest], items as [|v items]; try discriminate.
      + exists (mkPost None [] []); split; [apply loop_done; now_conv|split; reflexivity].
      + injection Hlen as Hlen.
        destruct top as [|c cs].
        * exists (mkPost None items rest); split; [apply loop_done; now_conv|split; [exact Hlen|reflexivity]].
        * destruct (post_down (nt c) c eq_refl (v :: items) (cs :: rest)) as (s' & Hs & HR); [cbn; lia|].
          exists s'; split.
          -- eapply loop_step; [apply conv_eq; intros f; cbn; rewrite (gv_eq gvc); reflexivity|].
             cbn [post_out flat_map]; rewrite <- app_assoc.
             replace (hd_error (fpost c ++ flat_map fpost cs ++ v :: post_out items rest)) with (hd_error (fpost c));
               [exact Hs|].
             rewrite post_unfold; destruct (flat_map fpost (kids c)); reflexivity.
          -- cbn [post_out flat_map] in *; rewrite <- app_assoc.
             replace (tl (fpost c ++ flat_map fpost cs ++ v :: post_out items rest))
               with (tl (fpost c) ++ flat_map fpost cs ++ v :: post_out items rest); [exact HR|].
             rewrite post_unfold; destruct (flat_map fpost (kids c)); reflexivity.
  Qed.

  Lemma post_yields n : yields (post_next gvc) (post_new n) (map value (postorder (nt n))).
  Proof.
    apply (step_inv_yields _ _ post_step); split; [reflexivity|split; reflexivity].
  Qed.

  (** *** Breadth first *)
  Definition lev (d : nat) (n : Nd) : list Nd := level d (nt n).

  Lemma lev_0 n : lev 0 n = [n].
  Proof. unfold lev; rewrite (nt_unfold _ _ Hnt); reflexivity. Qed.
  Lemma lev_S d n : lev (S d) n = flat_map (lev d) (kids n).
  Proof. unfold lev; rewrite (nt_unfold _ _ Hnt n); cbn; rewrite flat_map_map; reflexivity. Qed.

  (** [cur]: nodes left at the current level; [nxt]: children of the nodes of this level already visited. *)
  Definition mix (cur nxt : list Nd) (D : nat) : list Nd :=
    cur ++ flat_map (fun d => flat_map (lev d) nxt ++ flat_map (lev (S d)) cur) (seq 0 D).

  Definition bounded (ns : list Nd) (D : nat) : Prop := forall n, In n ns -> height (nt n) <= D.

  Lemma bounded_kids n D : height (nt n) <= S D -> bounded (kids n) D.
  Proof.
    rewrite (nt_unfold _ _ Hnt); cbn; intros H c Hc; fold (kids n) in H.
    pose proof (list_max_in (map height (map nt (kids n))) (height (nt c))
                  (in_map _ _ _ (in_map _ _ _ Hc))); lia.
  Qed.

  Lemma mix_cons c cur nxt D : mix (c :: cur) nxt D = c :: mix cur (nxt ++ kids c) D.
  Proof.
    unfold mix; cbn [app flat_map]; do 2 f_equal; apply flat_map_ext; intros d.
    rewrite flat_map_app, <- app_assoc, lev_S; reflexivity.
  Qed.

  Lemma mix_nil nxt D : mix [] nxt (S D) = mix nxt [] D.
  Proof.
    unfold mix; cbn [app flat_map seq]; rewrite app_nil_r; f_equal.
    - induction nxt as [|n ns IH]; cbn [flat_map]; [reflexivity|rewrite lev_0, IH; reflexivity].
    - rewrite <- seq_shift, flat_map_map; apply flat_map_ext; intros d; rewrite app_nil_r; reflexivity.
  Qed.

  (** Breadth-first order of what a queue of nodes still has to give. *)
  Definition bfs_rem (q : list Nd) (l : list Nd) : Prop :=
    exists cur nxt D, q = cur ++ nxt /\ bounded cur (S D) /\ bounded nxt D /\ l = mix cur nxt D.

  Lemma bfs_rem_step n q l : bfs_rem (n :: q) l -> exists l', l = n :: l' /\ bfs_rem (q ++ kids n) l'.
  Proof.
    intros (cur & nxt & D & Eq & Hc & Hn & ->).
    destruct cur as [|c cur]; cbn in Eq.
    - subst nxt.
      destruct D as [|D].
      { exfalso; pose proof (Hn n (or_introl eq_refl)) as H; rewrite (nt_unfold _ _ Hnt) in H; cbn in H; lia. }
      rewrite mix_nil, mix_cons; eexists; split; [reflexivity|].
      exists q, (kids n), D; repeat split; cbn.
      + intros c Hc'; apply Hn; right; exact Hc'.
      + apply bounded_kids, Hn; left; reflexivity.
    - injection Eq as <- ->.
      rewrite mix_cons; eexists; split; [reflexivity|].
      exists cur, (nxt ++ kids n), D; repeat split.
      + rewrite <- app_assoc; reflexivity.
      + intros x Hx; apply Hc; right; exact Hx.
      + intros x Hx; apply in_app_iff in Hx as [Hx|Hx]; [apply Hn; exact Hx|].
        apply (bounded_kids n); [apply Hc; left; reflexivity|exact Hx].
  Qed.

  Lemma bfs_rem_nil l : bfs_rem [] l -> l = [].
  Proof.
    intros (cur & nxt & D & Eq & _ & _ & ->).
    destruct cur, nxt; try discriminate; unfold mix; cbn.
    apply flat_map_nil; reflexivity.
  Qed.

  Lemma bfs_rem_nil' : bfs_rem [] [].
  Proof. exists [], [], 0; repeat split; intros ? []. Qed.

  Lemma bfs_rem_root n : bfs_rem [n] (bfs (nt n)).
  Proof.
    exists [n], [], (height (nt n)); repeat split.
    - intros x [<-|[]]; lia.
    - intros x [].
    - rewrite (bfs_bound _ (S (height (nt n)))) by lia.
      unfold mix; cbn [seq flat_map app]; change (level 0 (nt n)) with (lev 0 n); rewrite lev_0; cbn [app]; f_equal.
      rewrite <- seq_shift, flat_map_map; apply flat_map_ext; intros d; rewrite app_nil_r; reflexivity.
  Qed.

  Definition bfs_R (s : bfs_iter Nd) (l : list V) : Prop :=
    exists ns, l = map value ns /\
    match bfs_root s with
    | Some n => bfs_queue s = [] /\ bfs_rem [n] ns
    | None => bfs_rem (concat (bfs_queue s)) ns
    end.

  Lemma bfs_loop q ns : bfs_rem (concat q) ns ->
    exists s', (fun f => loop (bfs_next_body gvc) f q) ⇓ Ok (hd_error (map value ns), s') /\
               bfs_R s' (tl (map value ns)).
  Proof.
    induction q as [|front rest IH]; intros H.
    - apply bfs_rem_nil in H; subst ns.
      exists (mkBfs None []); split; [apply loop_done; now_conv|].
      exists []; split; [reflexivity|apply bfs_rem_nil'].
    - destruct front as [|n front].
      + destruct (IH H) as (s' & Hs & HR).
        exists s'; split; [|exact HR].
        eapply loop_step; [now_conv|exact Hs].
      + cbn in H; apply bfs_rem_step in H as (ns' & -> & H).
        exists (mkBfs None ((front :: rest) ++ [kids n])); split.
        * apply loop_done; apply conv_eq; intros f; cbn; rewrite (gv_eq gvc); reflexivity.
        * exists ns'; split; [reflexivity|].
          cbn [bfs_root bfs_queue]; rewrite concat_app; cbn; rewrite app_nil_r; exact H.
  Qed.

  Lemma bfs_step : step_inv (bfs_next gvc) bfs_R.
  Proof.
    intros [r q] l (ns & -> & H); cbn in H; unfold bfs_next; cbn.
    destruct r as [n|].
    - destruct H as [-> H]; apply bfs_rem_step in H as (ns' & -> & H).
      exists (mkBfs None [kids n]); split.
      + rewrite (gv_eq gvc); now_conv.
      + exists ns'; split; [reflexivity|]; cbn in *; rewrite app_nil_r; exact H.
    - apply bfs_loop; exact H.
  Qed.

  Lemma bfs_yields n : yields (bfs_next gvc) (bfs_new n) (map value (bfs (nt n))).
  Proof.
    apply (step_inv_yields _ _ bfs_step).
    exists (bfs (nt n)); split; [reflexivity|]; split; [reflexivity|apply bfs_rem_root].
  Qed.
End Plain.

Section Inorder.
  Context {Nd V : Type} (gvcb : Nd -> V * (option Nd * option Nd)) (bt : Nd -> btree Nd).
  Hypothesis Hbt : node_btree gvcb bt.
  Local Notation value := (nval gvcb).
  Local Notation lc := (nleft gvcb).
  Local Notation rc := (nright gvcb).

  Definition ino (n : Nd) : list V := map value (inorder (bt n)).
  Definition ioo (o : option Nd) : list V := match o with Some n => ino n | None => [] end.

  Lemma ino_unfold n : ino n = ioo (lc n) ++ value n :: ioo (rc n).
  Proof.
    unfold ino at 1; rewrite (bt_unfold _ _ Hbt); cbn [inorder]; rewrite map_app; cbn [map app].
    destruct (lc n), (rc n); reflexivity.
  Qed.

  (** right_stack = rights of the items, and possibly one more on top (to be visited first). *)
  Fixpoint in_out (items : list V) (rights : list (option Nd)) : list V :=
    match items, rights with
    | v :: items', r :: rights' => v :: ioo r ++ in_out items' rights'
    | _, _ => []
    end.

  Definition in_R (s : in_iter Nd V) (l : list V) : Prop :=
    (length (in_right s) = length (in_items s) /\ l = in_out (in_items s) (in_right s)) \/
    (exists r rs, in_right s = r :: rs /\ length rs = length (in_items s) /\
                  l = ioo r ++ in_out (in_items s) rs).

  Lemma in_descend : forall t o, option_map bt o = t -> forall items rights, length items = length rights ->
    exists items' rights', (fun f => loop (in_descend_body gvcb) f (o, rights, items)) ⇓ Ok (rights', items') /\
      length items' = length rights' /\
      in_out items' rights' = ioo o ++ in_out items rights.
  Proof.
    assert (H : forall t n, bt n = t -> forall items rights, length items = length rights ->
      exists items' rights', (fun f => loop (in_descend_body gvcb) f (Some n, rights, items)) ⇓ Ok (rights', items') /\
        length items' = length rights' /\ in_out items' rights' = ino n ++ in_out items rights).
    { induction t as [v l r IHl _] using btree_ind'; intros n En items rights Hlen.
      assert (El : option_map bt (lc n) = l) by (rewrite (bt_unfold _ _ Hbt) in En; injection En as _ E _; exact E).
      destruct (lc n) as [m|] eqn:Em; cbn in El; subst l.
      - destruct (IHl m eq_refl (value n :: items) (rc n :: rights)) as (items' & rights' & Hl & Hlen' & E).
        { cbn; lia. }
        exists items', rights'; split; [|split; [exact Hlen'|]].
        + eapply loop_step; [apply conv_eq; intros f; cbn; rewrite (gvcb_eq gvcb); reflexivity|].
          rewrite Em; exact Hl.
        + rewrite E, (ino_unfold n), Em; cbn; rewrite <- app_assoc; reflexivity.
      - exists (value n :: items), (rc n :: rights); split; [|split; [cbn; lia|]].
        + eapply loop_step; [apply conv_eq; intros f; cbn; rewrite (gvcb_eq gvcb); reflexivity|].
          rewrite Em; apply loop_done; now_conv.
        + rewrite ino_unfold, Em; reflexivity. }
    intros t [n|] _ items rights Hlen.
    - destruct (H (bt n) n eq_refl items rights Hlen) as (items' & rights' & ?); eauto.
    - exists items, rights; split; [apply loop_done; now_conv|split; [exact Hlen|reflexivity]].
  Qed.

  Lemma in_finish b items rights : length rights = length items ->
    in_R (mkIn rights items b) (in_out items rights).
  Proof. intros H; left; split; [exact H|reflexivity]. Qed.

  Lemma in_pop b items rights : length rights = length items ->
    hd_error items = hd_error (in_out items rights) /\
    in_R (mkIn rights (tl items) b) (tl (in_out items rights)).
  Proof.
    intros H; destruct items as [|v items], rights as [|r rights]; try discriminate.
    - split; [reflexivity|left; split; reflexivity].
    - split; [reflexivity|]; right; exists r, rights; cbn; split; [reflexivity|split; [cbn in H; lia|reflexivity]].
  Qed.

  Lemma in_step : step_inv (in_next gvcb) in_R.
  Proof.
    intros [rights items b] l H; unfold in_R in H; cbn in H; unfold in_next; cbn [in_right in_items].
    destruct H as [[Hlen ->]|(r & rs & -> & Hlen & ->)].
    - destruct (in_pop true items rights Hlen) as [E HR].
      exists (mkIn rights (tl items) true); split; [|exact HR].
      eapply conv_bind.
      + apply loop_done; apply conv_eq; intros f; unfold in_find_body.
        rewrite Hlen, Nat.eqb_refl; reflexivity.
      + cbn; rewrite <- E; now_conv.
    - assert (Hne : (length (r :: rs) =? length items) = false) by (apply Nat.eqb_neq; cbn; lia).
      destruct r as [n|].
      + destruct (in_descend _ (Some n) eq_refl items rs (eq_sym Hlen)) as (items' & rights' & Hl & Hlen' & E).
        destruct (in_pop true items' rights' (eq_sym Hlen')) as [E1 HR].
        rewrite E in E1, HR.
        exists (mkIn rights' (tl items') true); split; [|exact HR].
        eapply (conv_bind _ (inr (Some n, rs))).
        * apply loop_done; apply conv_eq; intros f; unfold in_find_body; rewrite Hne; destruct rs; reflexivity.
        * cbn beta iota.
          eapply conv_bind; [exact Hl|]; rewrite <- E1; now_conv.
      + cbn [ioo app].
        destruct (in_pop true items rs Hlen) as [E HR].
        exists (mkIn rs (tl items) true); split; [|exact HR].
        destruct rs as [|r' rs].
        * destruct items; [|discriminate].
          eapply (conv_bind _ (inr (None, []))).
          -- apply loop_done; apply conv_eq; intros f; reflexivity.
          -- cbn beta iota; eapply conv_bind; [apply loop_done; now_conv|]; now_conv.
        * eapply (conv_bind _ (inl (hd_error items, tl items, r' :: rs))).
          -- eapply loop_step; [apply conv_eq; intros f; unfold in_find_body; rewrite Hne; reflexivity|].
             apply loop_done; apply conv_eq; intros f; unfold in_find_body; rewrite Hlen, Nat.eqb_refl; reflexivity.
          -- cbn; rewrite <- E; now_conv.
  Qed.

  Lemma in_yields n : yields (in_next gvcb) (in_new n) (map value (inorder (bt n))).
  Proof.
    apply (step_inv_yields _ _ in_step).
    right; exists (Some n), []; cbn; rewrite app_nil_r; auto.
  Qed.
End Inorder.
