(** * The cache of the breadth-first streaming iterators: invariant and main lemmas.

    The iterators keep, in [tree_cache] / [traversal_stack], the part of the tree above the level being
    yielded.  Here this structure is described from the tree alone ([cached], [spine]) and
    [pop_from_item_stack] and [advance_dfs] are shown to maintain the description. *)
From Verif Require Import Prelim PrelimFacts Spec SpecFacts ModelNode NodeFacts ModelBfs ProofsPlain.

(** ** [traversal_stack] and [tree_cache] as one list (innermost first, the cache last) *)
Section Layout.
  Context {V : Type}.

  Fixpoint split (ul : list (cnode V)) : list (cnode V) * cnode V :=
    match ul with
    | [] => ([], cn_default)
    | [x] => ([], CNode None 0 (cn_children x))
    | x :: us => let '(stack, cache) := split us in (x :: stack, cache)
    end.

  Definition st (anc : list V) (path : list N) (ul : list (cnode V)) : cdfs_st (V:=V) :=
    let '(stack, cache) := split ul in (anc, path, cache, stack).

  Lemma split_cons x y us : split (x :: y :: us) = (x :: fst (split (y :: us)), snd (split (y :: us))).
  Proof. cbn [split]; destruct us; [reflexivity|]; destruct (split (c :: us)); reflexivity. Qed.

  Lemma split_length x us : length (fst (split (x :: us))) = length us.
  Proof.
    revert x; induction us as [|y us IH]; intros x; [reflexivity|].
    rewrite split_cons; cbn [fst length]; rewrite IH; reflexivity.
  Qed.

  Lemma top_split x us : top_children (fst (split (x :: us))) (snd (split (x :: us))) = cn_children x.
  Proof. destruct us as [|y us]; [reflexivity|]; rewrite split_cons; reflexivity. Qed.

  Lemma set_top_split x us l :
    set_top_children (fst (split (x :: us))) (snd (split (x :: us))) l = split (cn_set_children x l :: us).
  Proof. destruct us as [|y us]; [destruct x; reflexivity|]; rewrite !split_cons; reflexivity. Qed.

  Lemma st_eq anc path ul : st anc path ul = (anc, path, snd (split ul), fst (split ul)).
  Proof. unfold st; destruct (split ul); reflexivity. Qed.

  (** One iteration of [advance_dfs] on this layout. *)
  Lemma body_empty sd f anc path x us : cn_children x = [] ->
    cadvance_dfs_body sd f (st anc path (x :: us)) = Ok (inr (st anc path (x :: us))).
  Proof. intros H; rewrite st_eq; unfold cadvance_dfs_body; rewrite top_split, H; reflexivity. Qed.

  Lemma body_push sd f anc path x us v i ch rest : cn_children x = Some (CNode (Some v) i ch) :: rest ->
    cadvance_dfs_body sd f (st anc path (x :: us)) =
    let s' := st (v :: anc) (i :: path) (CNode None i ch :: cn_set_children x rest :: us) in
    Ok (match ch with [] => if sd <=? S (length anc) then inr s' else inl s' | _ => inl s' end).
  Proof.
    intros H; rewrite !st_eq; unfold cadvance_dfs_body; rewrite top_split, H, set_top_split.
    destruct (split (cn_set_children x rest :: us)) as [stack cache] eqn:E.
    cbn zeta; rewrite split_cons, E; cbn [fst snd assume_init bindR negb andb length].
    destruct ch; cbn [negb andb]; [|reflexivity].
    destruct (sd <=? S (length anc)); reflexivity.
  Qed.

  Lemma body_up sd f v anc i path x y us rest : cn_children x = None :: rest -> rest <> [] -> anc <> [] ->
    cadvance_dfs_body sd f (st (v :: anc) (i :: path) (x :: y :: us)) =
    Ok (inl (st anc path (cn_set_children y (cn_children y ++ [Some (CNode (Some v) i (rest ++ [None]))]) :: us))).
  Proof.
    intros H Hr Ha; rewrite !st_eq; unfold cadvance_dfs_body; rewrite top_split, H, set_top_split.
    destruct rest as [|r0 rest]; [congruence|].
    rewrite split_cons; cbn [fst snd]; destruct x as [xv xi xc]; cbn [cn_set_children cn_children set_top_children].
    destruct anc as [|a anc]; [congruence|]; cbn [length Nat.ltb Nat.leb bindR].
    rewrite top_split, set_top_split.
    destruct (split _) as [stack cache]; reflexivity.
  Qed.

  Lemma body_root sd f v path x rest : cn_children x = None :: rest ->
    cadvance_dfs_body sd f (st [v] path [x]) =
    Ok (inl (st [v] path [cn_set_children x (match rest with [] => [] | _ => rest ++ [None] end)])).
  Proof.
    intros H; destruct x as [xv xi xc]; cbn in H; subst xc; destruct rest; reflexivity.
  Qed.
End Layout.

(** ** The description *)
Section Core.
  Context {Q V : Type} (kids : Q -> list Q) (val : Q -> V) (seg : Q -> N) (A : Q -> list V) (PP : Q -> list N).
  Context (T : Q -> tree Q).
  Hypothesis HT : node_tree (fun p => (val p, kids p)) T.
  Hypothesis HA : forall p c, In c (kids p) -> A c = val c :: A p.
  Hypothesis HP : forall p c, In c (kids p) -> PP c = seg c :: PP p.

  Notation lev := (lev T).
  Lemma clev_0 p : lev 0 p = [p].
  Proof. exact (lev_0 _ T HT p). Qed.
  Lemma clev_S e p : lev (S e) p = flat_map (lev e) (kids p).
  Proof. exact (lev_S _ T HT e p). Qed.
  Lemma clev_last e p : lev (S e) p = flat_map kids (lev e p).
  Proof.
    revert p; induction e as [|e IH]; intros p; rewrite clev_S.
    - rewrite clev_0; cbn [flat_map]; rewrite app_nil_r.
      induction (kids p) as [|c cs IHc]; cbn [flat_map]; [reflexivity|]; rewrite clev_0, IHc; reflexivity.
    - rewrite (clev_S e); induction (kids p) as [|c cs IHc]; cbn [flat_map]; [reflexivity|].
      rewrite flat_map_app, IHc, IH; reflexivity.
  Qed.

  (** A node as it is stored in its parent's deque when the frontier is [e] levels below it
      (nothing when it has no node at this level). *)
  Fixpoint cached (e : nat) (p : Q) : list (cnode V) :=
    match e with
    | 0 => [CNode (Some (val p)) (seg p) []]
    | S e' => match flat_map (cached e') (kids p) with
              | [] => []
              | l => [CNode (Some (val p)) (seg p) (map Some l ++ [None])]
              end
    end.

  Lemma cached_nil e : forall p, cached e p = [] <-> lev e p = [].
  Proof.
    induction e as [|e IH]; intros p.
    - rewrite clev_0; cbn; split; discriminate.
    - rewrite clev_S; cbn [cached].
      assert (H : forall l, flat_map (cached e) l = [] <-> flat_map (lev e) l = []).
      { induction l as [|c l IHl]; cbn; [tauto|]; split; intros E; apply app_eq_nil in E as [E1 E2].
        - apply IH in E1; apply IHl in E2; rewrite E1, E2; reflexivity.
        - apply IH in E1; apply IHl in E2; rewrite E1, E2; reflexivity. }
      rewrite <- H; destruct (flat_map (cached e) (kids p)); split; congruence.
  Qed.

  Lemma cacheds_nil e l : flat_map (cached e) l = [] <-> flat_map (lev e) l = [].
  Proof.
    induction l as [|c l IHl]; cbn; [tauto|]; split; intros E; apply app_eq_nil in E as [E1 E2];
      apply cached_nil in E1; apply IHl in E2; rewrite E1, E2; reflexivity.
  Qed.

  Lemma cached_deeper e p : cached e p = [] -> cached (S e) p = [].
  Proof. rewrite !cached_nil; intros H; rewrite clev_last, H; reflexivity. Qed.
  Lemma cacheds_deeper e l : flat_map (cached e) l = [] -> flat_map (cached (S e)) l = [].
  Proof.
    induction l as [|c l IHl]; cbn [flat_map]; intros E; [reflexivity|]; apply app_eq_nil in E as [E1 E2].
    rewrite IHl, cached_deeper by assumption; reflexivity.
  Qed.

  (** The deque of an open node: children still to be visited in this round, the marker, children done. *)
  Definition dq (e : nat) (pre post : list Q) : list (option (cnode V)) :=
    map Some (flat_map (cached e) post) ++ None :: map Some (flat_map (cached (S e)) pre).

  (** [spine d e p ul m rest]: [ul] are the open nodes from the current parent [m] (whose deque is [d])
      up to [p], [e] levels above; [rest]: the parents still to come below [p] in this round. *)
  Inductive spine (d : list (option (cnode V))) : nat -> Q -> list (cnode V) -> Q -> list Q -> Prop :=
  | sp_0 p : spine d 0 p [CNode None (seg p) d] p []
  | sp_S e p pre c post ul m rest : kids p = pre ++ c :: post -> spine d e c ul m rest ->
      spine d (S e) p (ul ++ [CNode None (seg p) (dq e pre post)]) m (rest ++ flat_map (lev e) post).

  (** The same when the current parent is finished: [t] is the innermost open node. *)
  Inductive hole : nat -> Q -> list (cnode V) -> Q -> list Q -> Prop :=
  | ho_0 p : kids p <> [] ->
      hole 0 p [CNode None (seg p) (None :: map Some (flat_map (cached 0) (kids p)))] p []
  | ho_top e p pre post : kids p = pre ++ post ->
      flat_map (cached e) post ++ flat_map (cached (S e)) pre <> [] ->
      hole (S e) p [CNode None (seg p) (dq e pre post)] p (flat_map (lev e) post)
  | ho_S e p pre c post ul t rest : kids p = pre ++ c :: post -> hole e c ul t rest ->
      hole (S e) p (ul ++ [CNode None (seg p) (dq e pre post)]) t (rest ++ flat_map (lev e) post).

  Lemma spine_len d e p ul m rest : spine d e p ul m rest -> length ul = S e.
  Proof. induction 1; [reflexivity|rewrite app_length; cbn; lia]. Qed.
  Lemma spine_A d e p ul m rest : spine d e p ul m rest -> length (A m) = e + length (A p).
  Proof.
    induction 1 as [|e p pre c post ul m rest Hk _ IH]; [reflexivity|].
    rewrite IH, (HA p c) by (rewrite Hk; apply in_app_iff; right; left; reflexivity); cbn; lia.
  Qed.
  Lemma spine_ne d e p ul m rest : spine d e p ul m rest -> ul <> [].
  Proof. intros H E; apply spine_len in H; subst; discriminate. Qed.
  Lemma hole_ne e p ul t rest : hole e p ul t rest -> ul <> [].
  Proof. destruct 1; try discriminate; destruct ul; discriminate. Qed.
  Lemma spine_lev d e p ul m rest : spine d e p ul m rest -> exists before, lev e p = before ++ m :: rest.
  Proof.
    induction 1 as [p|e p pre c post ul m rest Hk _ [before IH]].
    - exists []; apply clev_0.
    - rewrite clev_S, Hk, flat_map_app; cbn [flat_map]; rewrite IH.
      exists (flat_map (lev e) pre ++ before); rewrite <- !app_assoc; reflexivity.
  Qed.
  Lemma hole_A e p ul t rest : hole e p ul t rest -> length (A p) <= length (A t) <= e + length (A p).
  Proof.
    induction 1 as [| |e p pre c post ul m rest Hk _ IH]; [lia|lia|].
    rewrite (HA p c) in IH by (rewrite Hk; apply in_app_iff; right; left; reflexivity); cbn in IH; lia.
  Qed.

  Lemma spine_inv d D p ul m rest : spine d D p ul m rest ->
    (D = 0 /\ ul = [CNode None (seg p) d] /\ m = p /\ rest = []) \/
    (exists e pre c post ul0 rest0, D = S e /\ kids p = pre ++ c :: post /\ spine d e c ul0 m rest0 /\
       ul = ul0 ++ [CNode None (seg p) (dq e pre post)] /\ rest = rest0 ++ flat_map (lev e) post).
  Proof. destruct 1; [left; auto|right; do 6 eexists; eauto]. Qed.

  Lemma hole_inv D p ul t rest : hole D p ul t rest ->
    (D = 0 /\ kids p <> [] /\ ul = [CNode None (seg p) (None :: map Some (flat_map (cached 0) (kids p)))] /\ t = p /\ rest = []) \/
    (exists e pre post, D = S e /\ ul = [CNode None (seg p) (dq e pre post)]) \/
    (exists e pre c post ul0 rest0, D = S e /\ kids p = pre ++ c :: post /\ hole e c ul0 t rest0 /\
       ul = ul0 ++ [CNode None (seg p) (dq e pre post)] /\ rest = rest0 ++ flat_map (lev e) post).
  Proof. destruct 1; [left; auto|right; left; do 3 eexists; eauto|right; right; do 6 eexists; eauto]. Qed.

  Definition cloop sd f s := loop (cadvance_dfs_body (V:=V) sd) f s.

  (** First element of a [flat_map]. *)
  Lemma flat_map_first (e : nat) l x xs : flat_map (cached e) l = x :: xs ->
    exists pre c post, l = pre ++ c :: post /\ flat_map (cached e) pre = [] /\ cached e c = [x] /\
                       xs = flat_map (cached e) post.
  Proof.
    induction l as [|c l IH]; cbn [flat_map]; intros E; [discriminate|].
    destruct (cached e c) as [|y ys] eqn:Ec.
    - destruct (IH E) as (pre & c' & post & -> & H1 & H2 & H3).
      exists (c :: pre), c', post; cbn; rewrite Ec, H1; auto.
    - assert (ys = []).
      { destruct e as [|e]; cbn in Ec; [injection Ec as _ <-; reflexivity|].
        destruct (flat_map (cached e) (kids c)); [discriminate|injection Ec as _ <-; reflexivity]. }
      subst ys; injection E as -> <-; exists [], c, l; auto.
  Qed.

  (** Going down to the first parent of a subtree. *)
  Lemma descend sd e : forall c x anc path v0 i0 q us,
    cached e c = [x] -> sd <= e + S (length anc) -> (A c = val c :: anc) -> (PP c = seg c :: path) ->
    exists ul m rest, spine [] e c ul m rest /\ lev e c = m :: rest /\
      (fun f => cloop sd f (st anc path (CNode v0 i0 (Some x :: q) :: us))) ⇓
        Ok (st (A m) (PP m) (ul ++ CNode v0 i0 q :: us)).
  Proof.
    induction e as [|e IH]; intros c x anc path v0 i0 q us Hx Hsd HAc HPc.
    - cbn in Hx; injection Hx as <-.
      exists [CNode None (seg c) []], c, []; split; [constructor|split; [apply clev_0|]].
      apply loop_done, conv_eq; intros f.
      erewrite body_push by reflexivity; cbn zeta; cbn [cn_set_children app].
      replace (sd <=? S (length anc)) with true by (symmetry; apply Nat.leb_le; cbn in Hsd; lia).
      rewrite HAc, HPc; reflexivity.
    - cbn [cached] in Hx; destruct (flat_map (cached e) (kids c)) as [|y ys] eqn:Ek; [discriminate|].
      injection Hx as <-.
      destruct (flat_map_first _ _ _ _ Ek) as (pre & c' & post & Hk & Hpre & Hc' & ->).
      assert (Hin : In c' (kids c)) by (rewrite Hk; apply in_app_iff; right; left; reflexivity).
      destruct (IH c' y (val c :: anc) (seg c :: path) None (seg c) (map Some (flat_map (cached e) post) ++ [None])
                  (CNode v0 i0 q :: us)) as (ul & m & rest & Hs & Hl & Hc); [exact Hc'|cbn in *; lia| | |].
      { rewrite (HA _ _ Hin), HAc; reflexivity. }
      { rewrite (HP _ _ Hin), HPc; reflexivity. }
      exists (ul ++ [CNode None (seg c) (dq e pre post)]), m, (rest ++ flat_map (lev e) post); split; [|split].
      + econstructor; eassumption.
      + rewrite clev_S, Hk, flat_map_app; cbn [flat_map]; rewrite Hl.
        apply cacheds_nil in Hpre; rewrite Hpre; reflexivity.
      + unfold dq; rewrite (cacheds_deeper _ _ Hpre), <- app_assoc; cbn [map app].
        eapply loop_step; [|exact Hc].
        apply conv_eq; intros f; erewrite body_push by reflexivity; reflexivity.
  Qed.

  (** The cached form of a node whose children are all done. *)
  Lemma cached_done e p pre post : kids p = pre ++ post -> flat_map (cached e) post = [] ->
    flat_map (cached (S e)) pre <> [] ->
    cached (S (S e)) p = [CNode (Some (val p)) (seg p) (map Some (flat_map (cached (S e)) pre) ++ [None])].
  Proof.
    intros Hk Hpost Hpre.
    assert (E : flat_map (cached (S e)) (kids p) = flat_map (cached (S e)) pre)
      by (rewrite Hk, flat_map_app, (cacheds_deeper _ _ Hpost), app_nil_r; reflexivity).
    change (cached (S (S e)) p) with
      (match flat_map (cached (S e)) (kids p) with
       | [] => [] | l => [CNode (Some (val p)) (seg p) (map Some l ++ [None])] end).
    rewrite E; destruct (flat_map (cached (S e)) pre); [congruence|reflexivity].
  Qed.

  (** From a finished parent: to the next parent below [p], or out of [p], which goes to the end of its
      parent's deque. *)
  Definition goes sd e p (s : cdfs_st (V:=V)) rest anc path y us : Prop :=
    match rest with
    | m :: rest' => exists ul', spine [] e p ul' m rest' /\
        (fun f => cloop sd f s) ⇓ Ok (st (A m) (PP m) (ul' ++ y :: us))
    | [] => exists x, cached (S e) p = [x] /\
        (forall r, (fun f => cloop sd f (st anc path (cn_set_children y (cn_children y ++ [Some x]) :: us))) ⇓ r ->
                   (fun f => cloop sd f s) ⇓ r)
    end.

  Lemma from_top sd e p pre post anc path y us :
    kids p = pre ++ post -> flat_map (cached e) post ++ flat_map (cached (S e)) pre <> [] ->
    sd <= S e + S (length anc) -> anc <> [] -> A p = val p :: anc -> PP p = seg p :: path ->
    goes sd (S e) p (st (A p) (PP p) (CNode None (seg p) (dq e pre post) :: y :: us)) (flat_map (lev e) post) anc path y us.
  Proof.
    intros Hk Hne Hsd Hanc HAp HPp; unfold goes, dq.
    destruct (flat_map (cached e) post) as [|x xs] eqn:Ep.
    - pose proof Ep as Ep'; apply cacheds_nil in Ep'; rewrite Ep'.
      eexists; split; [apply (cached_done e p pre post Hk Ep Hne)|].
      intros r Hr; eapply loop_step; [|exact Hr].
      apply conv_eq; intros f; rewrite HAp, HPp.
      rewrite (body_up _ _ _ _ _ _ _ _ _ (map Some (flat_map (cached (S e)) pre))); [reflexivity|reflexivity| |exact Hanc].
      cbn [app] in Hne; destruct (flat_map (cached (S e)) pre); [congruence|discriminate].
    - destruct (flat_map_first _ _ _ _ Ep) as (pre' & c & post' & -> & Hpre & Hc & ->).
      assert (Hin : In c (kids p)) by (rewrite Hk; apply in_app_iff; right; apply in_app_iff; right; left; reflexivity).
      destruct (descend sd e c x (A p) (PP p) None (seg p) (map Some (flat_map (cached e) post') ++ None :: map Some (flat_map (cached (S e)) pre))
                  (y :: us) Hc) as (ul & m & rest & Hs & Hl & Hcv).
      { rewrite HAp; cbn; lia. }
      { apply HA; exact Hin. }
      { apply HP; exact Hin. }
      rewrite flat_map_app; cbn [flat_map]; rewrite Hl.
      pose proof Hpre as Hpre'; apply cacheds_nil in Hpre'; rewrite Hpre'; cbn [app].
      exists (ul ++ [CNode None (seg p) (dq e (pre ++ pre') post')]); split.
      + econstructor; [|exact Hs]; rewrite Hk, <- app_assoc; reflexivity.
      + rewrite <- app_assoc; unfold dq; rewrite flat_map_app, (cacheds_deeper _ _ Hpre), app_nil_r; cbn [app]; exact Hcv.
  Qed.

  Lemma dq_snoc e pre c post x : cached (S e) c = [x] ->
    dq e pre post ++ [Some x] = dq e (pre ++ [c]) post.
  Proof.
    intros H; unfold dq; rewrite <- app_assoc; cbn [app]; do 2 f_equal.
    rewrite flat_map_app, map_app; cbn [flat_map]; rewrite H; reflexivity.
  Qed.

  Lemma from_hole sd e p ul t rest : hole e p ul t rest -> forall anc path y us,
    sd <= e + S (length anc) -> anc <> [] -> A p = val p :: anc -> PP p = seg p :: path ->
    goes sd e p (st (A t) (PP t) (ul ++ y :: us)) rest anc path y us.
  Proof.
    induction 1 as [p Hk|e p pre post Hk Hne|e p pre c post ul t rest Hk Hh IH];
      intros anc path y us Hsd Hanc HAp HPp.
    - assert (E : flat_map (cached 0) (kids p) <> []) by (destruct (kids p); [congruence|discriminate]).
      assert (Ec : cached 1 p = [CNode (Some (val p)) (seg p) (map Some (flat_map (cached 0) (kids p)) ++ [None])]).
      { change (cached 1 p) with (match flat_map (cached 0) (kids p) with
         | [] => [] | l => [CNode (Some (val p)) (seg p) (map Some l ++ [None])] end).
        destruct (flat_map (cached 0) (kids p)); [congruence|reflexivity]. }
      eexists; split; [exact Ec|].
      intros r Hr; eapply loop_step; [|exact Hr].
      apply conv_eq; intros f; rewrite HAp, HPp; cbn [app].
      rewrite (body_up _ _ _ _ _ _ _ _ _ (map Some (flat_map (cached 0) (kids p)))); [reflexivity|reflexivity| |exact Hanc].
      destruct (flat_map (cached 0) (kids p)); [congruence|discriminate].
    - apply from_top; assumption.
    - assert (Hin : In c (kids p)) by (rewrite Hk; apply in_app_iff; right; left; reflexivity).
      rewrite <- app_assoc; cbn [app].
      specialize (IH (A p) (PP p) (CNode None (seg p) (dq e pre post)) (y :: us)).
      destruct rest as [|m rest].
      + destruct IH as (x & Hx & IH); [rewrite HAp; cbn; lia|rewrite HAp; discriminate|apply HA, Hin|apply HP, Hin|].
        cbn [cn_set_children cn_children] in IH; rewrite (dq_snoc _ _ _ _ _ Hx) in IH.
        assert (Hne : flat_map (cached e) post ++ flat_map (cached (S e)) (pre ++ [c]) <> []).
        { rewrite flat_map_app; cbn [flat_map]; rewrite Hx; intros E.
          apply app_eq_nil in E as [_ E]; apply app_eq_nil in E as [_ E]; discriminate. }
        assert (Hk' : kids p = (pre ++ [c]) ++ post) by (rewrite <- app_assoc; exact Hk).
        pose proof (from_top sd e p (pre ++ [c]) post anc path y us Hk' Hne Hsd Hanc HAp HPp) as G.
        unfold goes in *; cbn [app]; destruct (flat_map (lev e) post) as [|m rest].
        * destruct G as (x' & Hx' & G); exists x'; split; [exact Hx'|]; intros r Hr; apply IH, G, Hr.
        * destruct G as (ul' & Hs & G); exists ul'; split; [exact Hs|]; apply IH, G.
      + destruct IH as (ul' & Hs & IH); [rewrite HAp; cbn; lia|rewrite HAp; discriminate|apply HA, Hin|apply HP, Hin|].
        cbn [app]; exists (ul' ++ [CNode None (seg p) (dq e pre post)]); split.
        * econstructor; eassumption.
        * rewrite <- app_assoc; exact IH.
  Qed.

  (** [drop_finished] from a parent without children. *)
  Lemma drop_dead e p ul m rest : spine [] e p ul m rest -> kids m = [] ->
    forall anc path us, A p = val p :: anc -> PP p = seg p :: path ->
    (rest = [] /\ cached (S e) p = [] /\ cdrop_finished (A m) (PP m) (ul ++ us) = cdrop_finished anc path us) \/
    (exists ul' t, hole e p ul' t rest /\ cdrop_finished (A m) (PP m) (ul ++ us) = (A t, PP t, ul' ++ us)).
  Proof.
    induction 1 as [p|e p pre c post ul m rest Hk Hs IH]; intros Hm anc path us HAp HPp.
    - left; split; [reflexivity|split].
      + cbn; rewrite Hm; reflexivity.
      + cbn; rewrite HAp, HPp; reflexivity.
    - assert (Hin : In c (kids p)) by (rewrite Hk; apply in_app_iff; right; left; reflexivity).
      rewrite <- app_assoc; cbn [app].
      destruct (IH Hm (A p) (PP p) (CNode None (seg p) (dq e pre post) :: us) (HA _ _ Hin) (HP _ _ Hin))
        as [(-> & Hc & E)|(ul' & t & Hh & E)].
      + rewrite E; cbn [cdrop_finished cn_children].
        assert (Hk' : kids p = (pre ++ [c]) ++ post) by (rewrite <- app_assoc; exact Hk).
        assert (Epre : flat_map (cached (S e)) (pre ++ [c]) = flat_map (cached (S e)) pre)
          by (rewrite flat_map_app; cbn [flat_map]; rewrite Hc, !app_nil_r; reflexivity).
        assert (Edq : dq e (pre ++ [c]) post = dq e pre post) by (unfold dq; rewrite Epre; reflexivity).
        assert (El : length (dq e pre post) = S (length (flat_map (cached e) post ++ flat_map (cached (S e)) pre)))
          by (unfold dq; rewrite !app_length; cbn [length]; rewrite !map_length; lia).
        rewrite El; destruct (flat_map (cached e) post ++ flat_map (cached (S e)) pre) as [|z zs] eqn:Ez.
        * apply app_eq_nil in Ez as [E1 E2].
          left; split; [|split].
          -- apply cacheds_nil in E1; rewrite E1; reflexivity.
          -- change (match flat_map (cached (S e)) (kids p) with
                | [] => [] | l => [CNode (Some (val p)) (seg p) (map Some l ++ [None])] end = []).
             rewrite Hk', flat_map_app, Epre, E2, (cacheds_deeper _ _ E1); reflexivity.
          -- cbn; rewrite HAp, HPp; reflexivity.
        * right; exists [CNode None (seg p) (dq e pre post)], p; split; [|reflexivity].
          rewrite <- Edq; cbn [app]; constructor; [exact Hk'|]; rewrite Epre, Ez; discriminate.
      + right; exists (ul' ++ [CNode None (seg p) (dq e pre post)]), t; split.
        * econstructor; eassumption.
        * rewrite E, <- app_assoc; reflexivity.
  Qed.
  (** ** At the root *)
  Lemma split_snoc (ul : list (cnode V)) x : split (ul ++ [x]) = (ul, CNode None 0 (cn_children x)).
  Proof.
    induction ul as [|y ul IH]; [destruct x; reflexivity|].
    cbn [app]; destruct (ul ++ [x]) as [|z zs] eqn:E; [destruct ul; discriminate|].
    rewrite split_cons, IH; reflexivity.
  Qed.
  Lemma st_snoc anc path (ul : list (cnode V)) v i d v' i' :
    st anc path (ul ++ [CNode v i d]) = st anc path (ul ++ [CNode v' i' d]).
  Proof. unfold st; rewrite !split_snoc; reflexivity. Qed.

  Lemma spine_set d d' e p ul m rest : spine d e p ul m rest ->
    exists x us, ul = x :: us /\ cn_children x = d /\ spine d' e p (cn_set_children x d' :: us) m rest.
  Proof.
    induction 1 as [p|e p pre c post ul m rest Hk _ (x & us & -> & Hd & IH)].
    - exists (CNode None (seg p) d), []; repeat split; constructor.
    - exists x, (us ++ [CNode None (seg p) (dq e pre post)]); repeat split; [exact Hd|].
      change (cn_set_children x d' :: us ++ [CNode None (seg p) (dq e pre post)]) with
        ((cn_set_children x d' :: us) ++ [CNode None (seg p) (dq e pre post)]).
      econstructor; eassumption.
  Qed.

  Lemma spine_hole e p ul m rest :
    spine (None :: map Some (flat_map (cached 0) (kids m))) e p ul m rest -> kids m <> [] -> hole e p ul m rest.
  Proof.
    remember (None :: map Some (flat_map (cached 0) (kids m))) as d eqn:Ed.
    induction 1 as [p|e p pre c post ul m rest Hk _ IH]; intros Hm; subst d.
    - constructor; exact Hm.
    - econstructor; eauto.
  Qed.

  Context (r : Q).
  Hypothesis HAr : A r = [val r].

  Lemma root_A d D ul m rest : spine d D r ul m rest -> length (A m) = length ul.
  Proof. intros H; rewrite (spine_A _ _ _ _ _ _ H), HAr, (spine_len _ _ _ _ _ _ H); cbn; lia. Qed.

  (** What the next parent is: the next of this level, else the first of the next level, else none. *)
  Definition moved D rest (s' : cdfs_st (V:=V)) : Prop :=
    match rest with
    | m' :: rest' => exists ul', spine [] D r ul' m' rest' /\ s' = st (A m') (PP m') ul'
    | [] => match lev (S D) r with
            | m' :: rest' => exists ul', spine [] (S D) r ul' m' rest' /\ s' = st (A m') (PP m') ul'
            | [] => s' = (A r, PP r, cn_default, [])
            end
    end.

  (** Looking for a child of the root to enter. *)
  Lemma root_descend sd e pre post i q : kids r = pre ++ post -> sd <= S (S e) ->
    flat_map (cached e) post <> [] ->
    q = map Some (flat_map (cached e) post) ++ None :: map Some (flat_map (cached (S e)) pre) ->
    exists m rest ul, flat_map (lev e) post = m :: rest /\ spine [] (S e) r ul m rest /\
      (fun f => cloop sd f (st (A r) (PP r) [CNode None i q])) ⇓ Ok (st (A m) (PP m) ul).
  Proof.
    intros Hk Hsd Hne ->.
    destruct (flat_map (cached e) post) as [|x xs] eqn:Ep; [congruence|].
    destruct (flat_map_first _ _ _ _ Ep) as (pre' & c & post' & -> & Hpre & Hc & ->).
    assert (Hin : In c (kids r)) by (rewrite Hk; apply in_app_iff; right; apply in_app_iff; right; left; reflexivity).
    destruct (descend sd e c x (A r) (PP r) None i (map Some (flat_map (cached e) post') ++ None :: map Some (flat_map (cached (S e)) pre))
                [] Hc) as (ul & m & rest & Hs & Hl & Hcv).
    { rewrite HAr; cbn; lia. }
    { apply HA; exact Hin. }
    { apply HP; exact Hin. }
    exists m, (rest ++ flat_map (lev e) post'), (ul ++ [CNode None (seg r) (dq e (pre ++ pre') post')]); split; [|split].
    - rewrite flat_map_app; cbn [flat_map]; rewrite Hl.
      apply cacheds_nil in Hpre; rewrite Hpre; reflexivity.
    - econstructor; [|exact Hs]; rewrite Hk, <- app_assoc; reflexivity.
    - unfold dq; rewrite flat_map_app, (cacheds_deeper _ _ Hpre), app_nil_r.
      rewrite (st_snoc _ _ _ None (seg r) _ None i); exact Hcv.
  Qed.

  (** A round is over. *)
  Lemma root_round sd D i : sd <= S (S D) ->
    exists s', (fun f => cloop sd f (st (A r) (PP r) [CNode None i (None :: map Some (flat_map (cached D) (kids r)))])) ⇓ Ok s' /\
               moved D [] s'.
  Proof.
    intros Hsd; unfold moved; rewrite clev_S.
    destruct (flat_map (cached D) (kids r)) as [|x xs] eqn:E.
    - eexists; split.
      + eapply loop_step; [apply conv_eq; intros f; rewrite HAr; apply (body_root _ _ _ _ _ []); reflexivity|].
        apply loop_done, conv_eq; intros f; apply body_empty; reflexivity.
      + apply cacheds_nil in E; rewrite E, HAr; reflexivity.
    - destruct (root_descend sd D [] (kids r) i (map Some (x :: xs) ++ [None]) eq_refl Hsd) as (m & rest & ul & El & Hs & Hc).
      { rewrite E; discriminate. }
      { rewrite E; reflexivity. }
      exists (st (A m) (PP m) ul); split.
      + eapply loop_step; [|exact Hc].
        apply conv_eq; intros f; rewrite HAr, (body_root _ _ _ _ _ (map Some (x :: xs))); reflexivity.
      + rewrite El; exists ul; auto.
  Qed.

  Lemma root_top sd e pre post i : kids r = pre ++ post -> sd <= S (S e) ->
    exists s', (fun f => cloop sd f (st (A r) (PP r) [CNode None i (dq e pre post)])) ⇓ Ok s' /\
               moved (S e) (flat_map (lev e) post) s'.
  Proof.
    intros Hk Hsd; destruct (flat_map (cached e) post) as [|x xs] eqn:Ep.
    - unfold dq; rewrite Ep; cbn [map app].
      replace (flat_map (cached (S e)) pre) with (flat_map (cached (S e)) (kids r))
        by (rewrite Hk, flat_map_app, (cacheds_deeper _ _ Ep), app_nil_r; reflexivity).
      destruct (root_round sd (S e) i ltac:(lia)) as (s' & Hc & Hm).
      apply cacheds_nil in Ep; rewrite Ep; eauto.
    - destruct (root_descend sd e pre post i (dq e pre post) Hk Hsd) as (m & rest & ul & El & Hs & Hc); [rewrite Ep; discriminate|reflexivity|].
      eexists; split; [exact Hc|]; unfold moved; rewrite El; eauto.
  Qed.

  Lemma next_parent D m rest ul : spine (map Some (flat_map (cached 0) (kids m))) D r ul m rest ->
    exists s', (fun f => cto_next_parent f (st (A m) (PP m) ul)) ⇓ Ok s' /\ moved D rest s'.
  Proof.
    intros Hs; pose proof (root_A _ _ _ _ _ Hs) as HlA.
    destruct (spine_set _ (None :: map Some (flat_map (cached 0) (kids m))) _ _ _ _ _ Hs) as (x & us & Eul & Ex & Hs').
    assert (Htop : top_children (fst (split ul)) (snd (split ul)) = map Some (flat_map (cached 0) (kids m)))
      by (rewrite Eul, top_split; exact Ex).
    rewrite st_eq; unfold cto_next_parent.
    destruct (kids m) as [|k ks] eqn:Ek.
    - cbn [flat_map map] in *.
      assert (Hgo : exists s1, (let '(anc, path, stack) := cdrop_finished (A m) (PP m) (fst (split ul)) in
                                (anc, path, snd (split ul), stack)) = s1 /\
                exists s', (fun f => cadvance_dfs f s1) ⇓ Ok s' /\ moved D rest s').
      { destruct (spine_inv _ _ _ _ _ _ Hs) as [(-> & -> & -> & ->)|(e & pre & c & post & ul0 & rest0 & -> & Hk & Hs0 & E3 & ->)].
        - eexists; split; [reflexivity|]; cbn [split fst snd cdrop_finished cn_children].
          exists (st (A r) (PP r) [CNode None (seg r) []]); split.
          + unfold cadvance_dfs; apply loop_done, conv_eq; intros f.
            exact (body_empty (length (A r)) f (A r) (PP r) (CNode None (seg r) []) [] eq_refl).
          + unfold moved; rewrite clev_S, Ek; reflexivity.
        - assert (Hin : In c (kids r)) by (rewrite Hk; apply in_app_iff; right; left; reflexivity).
          rewrite E3, split_snoc; cbn [fst snd cn_children].
          destruct (drop_dead _ _ _ _ _ Hs0 Ek (A r) (PP r) [] (HA _ _ Hin) (HP _ _ Hin))
            as [(-> & Hc & E)|(ul' & t & Hh & E)]; rewrite app_nil_r in E; rewrite E.
          + eexists; split; [reflexivity|]; cbn [cdrop_finished app].
            assert (Edq : dq e pre post = dq e (pre ++ [c]) post)
              by (unfold dq; rewrite flat_map_app; cbn [flat_map]; rewrite Hc, !app_nil_r; reflexivity).
            rewrite Edq.
            destruct (root_top (length (A r)) e (pre ++ [c]) post 0%N) as (s' & Hcv & Hm);
              [rewrite <- app_assoc; exact Hk|rewrite HAr; cbn; lia|].
            exists s'; split; [exact Hcv|exact Hm].
          + eexists; split; [reflexivity|].
            pose proof (hole_A _ _ _ _ _ Hh) as HlA'; rewrite (HA _ _ Hin), HAr in HlA'; cbn in HlA'.
            pose proof (from_hole (length (A t)) _ _ _ _ _ Hh (A r) (PP r) (CNode None 0 (dq e pre post)) []
              ltac:(rewrite HAr; cbn; lia) ltac:(rewrite HAr; discriminate) (HA _ _ Hin) (HP _ _ Hin)) as G.
            unfold cadvance_dfs; rewrite app_nil_r.
            assert (Est : (A t, PP t, CNode None 0 (dq e pre post), ul') = st (A t) (PP t) (ul' ++ [CNode None 0 (dq e pre post)]))
              by (unfold st; rewrite split_snoc; reflexivity).
            rewrite Est; unfold goes in G; destruct rest0 as [|m' rest']; cbn [app].
            * destruct G as (z & Hz & G); cbn [cn_set_children cn_children] in G; rewrite (dq_snoc _ _ _ _ _ Hz) in G.
              destruct (root_top (length (A t)) e (pre ++ [c]) post 0%N) as (s' & Hcv & Hm);
                [rewrite <- app_assoc; exact Hk|lia|].
              exists s'; split; [apply G; exact Hcv|exact Hm].
            * destruct G as (ul2 & Hs2 & G); eexists; split; [exact G|].
              cbn [moved]; exists (ul2 ++ [CNode None (seg r) (dq e pre post)]); split; [econstructor; eassumption|].
              apply st_snoc. }
      destruct Hgo as (s1 & E1 & s' & Hc & Hm).
      exists s'; split; [|exact Hm].
      rewrite Htop.
      destruct (cdrop_finished (A m) (PP m) (fst (split ul))) as [[anc path] stack]; rewrite E1; exact Hc.
    - assert (Hh : hole D r (cn_set_children x (None :: map Some (flat_map (cached 0) (kids m))) :: us) m rest).
      { apply spine_hole; rewrite Ek; [exact Hs'|discriminate]. }
      rewrite Htop, <- Ek.
      destruct (map Some (flat_map (cached 0) (kids m))) as [|o0 l0] eqn:El0; [rewrite Ek in El0; discriminate|].
      rewrite <- El0 in *; clear o0 l0 El0.
      rewrite Eul, set_top_split.
      destruct (split (cn_set_children x (None :: map Some (flat_map (cached 0) (kids m))) :: us)) as [stack cache] eqn:Esp.
      assert (Est : (A m, PP m, cache, stack) =
        st (A m) (PP m) (cn_set_children x (None :: map Some (flat_map (cached 0) (kids m))) :: us))
        by (unfold st; rewrite Esp; reflexivity).
      change (exists s', (fun f => cloop (length (A m)) f (A m, PP m, cache, stack)) ⇓ Ok s' /\ moved D rest s').
      rewrite Est; clear Est Esp.
      remember (cn_set_children x (None :: map Some (flat_map (cached 0) (kids m))) :: us) as ul1 eqn:Eul1.
      pose proof (hole_A _ _ _ _ _ Hh) as HlA'; rewrite HAr in HlA'; cbn in HlA'.
      assert (Hl1 : length ul1 = S D) by (subst ul1; rewrite Eul in Hs; exact (spine_len _ _ _ _ _ _ Hs)).
      destruct (hole_inv _ _ _ _ _ Hh) as [(-> & Hne & -> & -> & ->)|[(e & pre & post & -> & ->)|
        (e & pre & c & post & ul0 & rest0 & -> & Hk & Hh0 & E3 & E5)]].
      + apply (root_round (length (A r)) 0 (seg r)); rewrite HAr; cbn; lia.
      + discriminate.
      + assert (Hin : In c (kids r)) by (rewrite Hk; apply in_app_iff; right; left; reflexivity).
        pose proof (from_hole (length (A m)) _ _ _ _ _ Hh0 (A r) (PP r) (CNode None (seg r) (dq e pre post)) []
              ltac:(rewrite HAr; cbn; lia) ltac:(rewrite HAr; discriminate) (HA _ _ Hin) (HP _ _ Hin)) as G.
        rewrite E3; unfold goes in G; destruct rest0 as [|m' rest']; cbn [app].
        * destruct G as (z & Hz & G); cbn [cn_set_children cn_children] in G; rewrite (dq_snoc _ _ _ _ _ Hz) in G.
          destruct (root_top (length (A m)) e (pre ++ [c]) post (seg r)) as (s' & Hcv & Hm);
                [rewrite <- app_assoc; exact Hk|lia|].
          exists s'; split; [apply G; exact Hcv|]; subst rest; exact Hm.
        * destruct G as (ul2 & Hs2 & G); eexists; split; [exact G|].
          subst rest; cbn [moved app]; exists (ul2 ++ [CNode None (seg r) (dq e pre post)]); split; [econstructor; eassumption|].
          reflexivity.
  Qed.

  (** ** The state between two yields *)

  (** The current parent is [m], [D] levels below the root; its children [done] are in the cache, [todo] are still
      to come; [rest]: the parents still to come on this level; [nxt]: the nodes of the next level yielded so far. *)
  Definition at_parent D m done todo rest ul nxt : Prop :=
    spine (map Some (flat_map (cached 0) done)) D r ul m rest /\ kids m = done ++ todo /\
    nxt ++ todo ++ flat_map kids rest = lev (S D) r.

  (** The nodes still to be yielded (breadth-first queue). *)
  Definition pending todo rest nxt : list Q := todo ++ flat_map kids rest ++ flat_map kids nxt.

  Lemma at_root : at_parent 0 r [] (kids r) [] [CNode None (seg r) []] [].
  Proof.
    split; [|split].
    - constructor.
    - reflexivity.
    - cbn [flat_map app]; rewrite app_nil_r, clev_last, clev_0; cbn; rewrite app_nil_r; reflexivity.
  Qed.

  Lemma next_parent' D m done rest ul nxt : at_parent D m done [] rest ul nxt ->
    exists s', (fun f => cto_next_parent f (st (A m) (PP m) ul)) ⇓ Ok s' /\
      (rest ++ nxt = [] /\ s' = (A r, PP r, cn_default, []) \/
       exists D' m' rest' ul' nxt', s' = st (A m') (PP m') ul' /\
         at_parent D' m' [] (kids m') rest' ul' nxt' /\ rest ++ nxt = m' :: rest' ++ nxt').
  Proof.
    intros (Hs & Hk & Hl); rewrite app_nil_r in Hk; rewrite <- Hk in Hs.
    destruct (next_parent D m rest ul Hs) as (s' & Hc & Hm).
    exists s'; split; [exact Hc|]; unfold moved in Hm; destruct rest as [|m' rest'].
    - cbn [flat_map app] in *; rewrite app_nil_r in Hl; rewrite <- Hl in Hm.
      destruct nxt as [|m' rest']; [left; split; [reflexivity|exact Hm]|right].
      destruct Hm as (ul' & Hs' & ->).
      exists (S D), m', rest', ul', []; split; [reflexivity|split].
      + split; [exact Hs'|split; [reflexivity|]].
        rewrite clev_last, <- Hl; reflexivity.
      + rewrite app_nil_r; reflexivity.
    - destruct Hm as (ul' & Hs' & ->); right.
      exists D, m', rest', ul', nxt; split; [reflexivity|split; [|reflexivity]].
      split; [exact Hs'|split; [reflexivity|exact Hl]].
  Qed.

  Lemma update_top {X} (g : X -> X) x us : update_from_bottom (length us) g (x :: us) = Some (g x :: us).
  Proof.
    unfold update_from_bottom; cbn [rev].
    assert (H : forall l, update_nth (length l) g (l ++ [x]) = Some (l ++ [g x])).
    { induction l as [|y l IH]; cbn; [reflexivity|rewrite IH; reflexivity]. }
    rewrite <- (rev_length us), H; cbn; rewrite rev_app_distr; cbn; rewrite rev_involutive; reflexivity.
  Qed.

  Lemma maybe_pop_at D m done todo rest ul nxt : at_parent D m done todo rest ul nxt ->
    cmaybe_pop (st (A m) (PP m) ul) = Ok (st (A m) (PP m) ul).
  Proof.
    intros (Hs & _); rewrite st_eq; unfold cmaybe_pop.
    pose proof (root_A _ _ _ _ _ Hs) as HlA.
    destruct ul as [|x us]; [exfalso; eapply spine_ne; eauto|].
    rewrite split_length, HlA; cbn [length].
    destruct (Nat.eqb_spec (S (length us)) (length us + 2)); [lia|reflexivity].
  Qed.

  Lemma maybe_pop_after D m done c todo rest ul nxt : at_parent D m done (c :: todo) rest ul nxt ->
    exists ul', cmaybe_pop (st (A c) (PP c) ul) = Ok (st (A m) (PP m) ul') /\
                at_parent D m (done ++ [c]) todo rest ul' (nxt ++ [c]).
  Proof.
    intros (Hs & Hk & Hl).
    assert (Hin : In c (kids m)) by (rewrite Hk; apply in_app_iff; right; left; reflexivity).
    pose proof (root_A _ _ _ _ _ Hs) as HlA.
    destruct (spine_set _ (map Some (flat_map (cached 0) (done ++ [c]))) _ _ _ _ _ Hs) as (x & us & Eul & Ex & Hs').
    exists (cn_set_children x (map Some (flat_map (cached 0) (done ++ [c]))) :: us); split.
    - rewrite (HA _ _ Hin), (HP _ _ Hin), !st_eq; unfold cmaybe_pop, cpop_from_item_stack.
      subst ul; rewrite split_length; cbn [length] in HlA |- *; rewrite HlA.
      destruct (Nat.eqb_spec (S (S (length us))) (length us + 2)); [|lia].
      destruct (A m) as [|a below] eqn:EA; [discriminate|].
      assert (Ech : cn_children x ++ [Some (CNode (Some (val c)) (seg c) [])] = map Some (flat_map (cached 0) (done ++ [c]))).
      { rewrite Ex, flat_map_app, map_app; reflexivity. }
      cbn [length] in HlA; injection HlA as HlA.
      destruct below as [|b below].
      + destruct us; [|discriminate]; cbn [split tl fst snd cn_children cn_set_children].
        rewrite Ech; destruct x; reflexivity.
      + destruct us as [|y us]; [discriminate|].
        rewrite !split_cons; cbn [fst snd].
        replace (S (S (length (y :: us))) - 3) with (length (fst (split (y :: us)))) by (rewrite split_length; cbn [length]; lia).
        rewrite update_top, Ech; reflexivity.
    - split; [exact Hs'|split].
      + rewrite Hk, <- app_assoc; reflexivity.
      + rewrite <- Hl, <- app_assoc; reflexivity.
  Qed.

  (** Any property of the root inherited by children holds of all nodes involved. *)
  Lemma at_parent_ok (okq : Q -> Prop) : okq r -> (forall p c, okq p -> In c (kids p) -> okq c) ->
    forall D m done todo rest ul nxt, at_parent D m done todo rest ul nxt ->
    okq m /\ Forall okq todo /\ Forall okq rest /\ Forall okq nxt.
  Proof.
    intros Hr Hc.
    assert (HL : forall e x, In x (lev e r) -> okq x).
    { induction e as [|e IH]; intros x Hx.
      - rewrite clev_0 in Hx; destruct Hx as [<-|[]]; exact Hr.
      - rewrite clev_last in Hx; apply in_flat_map in Hx as (y & Hy & Hx); apply (Hc y); auto. }
    intros D m done todo rest ul nxt (Hs & Hk & Hl).
    destruct (spine_lev _ _ _ _ _ _ Hs) as [before Eb].
    assert (Hm : okq m) by (apply (HL D); rewrite Eb; apply in_app_iff; right; left; reflexivity).
    split; [exact Hm|split; [|split]]; rewrite Forall_forall; intros x Hx.
    - apply (HL (S D)); rewrite <- Hl; apply in_app_iff; right; apply in_app_iff; left; exact Hx.
    - apply (HL D); rewrite Eb; apply in_app_iff; right; right; exact Hx.
    - apply (HL (S D)); rewrite <- Hl; apply in_app_iff; left; exact Hx.
  Qed.
End Core.
