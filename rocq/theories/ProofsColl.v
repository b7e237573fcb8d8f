(** * Collections: concatenation of what the single trees give. *)
From Coq Require Import Permutation.
From Verif Require Import Prelim PrelimFacts Spec SpecFacts SpecObs ModelNode NodeFacts ModelColl Slots ProofsPlain.

Section Coll.
  Context {T S A : Type} (new : T -> S) (next : nat -> S -> Res (option A * S)).
  Variable L : T -> list A.
  Hypothesis HL : forall t, yields next (new t) (L t).

  Definition coll_R (s : coll T S) (l : list A) : Prop :=
    match co_cur s with
    | Some it => exists l0, yields next it l0 /\ l = l0 ++ flat_map L (co_trees s)
    | None => l = flat_map L (co_trees s)
    end.

  Lemma coll_fresh trees : exists s', (fun f => loop (coll_body new next) f (mkColl trees None)) ⇓ Ok (hd_error (flat_map L trees), s') /\
      coll_R s' (tl (flat_map L trees)) /\ (co_cur s' = None <-> flat_map L trees = []).
  Proof.
    induction trees as [|t ts IH].
    - exists (mkColl [] None); split; [apply loop_done; now_conv|split; [reflexivity|tauto]].
    - assert (Hstep : exists s', (fun f => loop (coll_body new next) f (mkColl ts (Some (new t)))) ⇓ Ok (hd_error (flat_map L (t :: ts)), s') /\
        coll_R s' (tl (flat_map L (t :: ts))) /\ (co_cur s' = None <-> flat_map L (t :: ts) = [])).
      { destruct (yields_step_inv next (new t) (L t) (HL t)) as (it' & Hn & Hy).
        cbn [flat_map]; destruct (L t) as [|x l0]; cbn [hd_error tl app] in *.
        - destruct IH as (s' & Hl & HR); exists s'; split; [|exact HR].
          destruct Hl as [[|F] HF]; [specialize (HF 0 (le_n _)); discriminate|].
          destruct Hn as [G HG]; exists (Datatypes.S (F + G)); intros f Hf.
          destruct f as [|f]; [lia|]; cbn [loop]; unfold coll_body at 1; cbn [co_cur co_trees]; rewrite HG by lia; cbn [bindR].
          specialize (HF (Datatypes.S f) ltac:(lia)); cbn [loop] in HF; unfold coll_body at 1 in HF; cbn [co_cur co_trees bindR] in HF.
          exact HF.
        - exists (mkColl ts (Some it')); split; [|split].
          + apply loop_done; unfold coll_body; cbn [co_cur co_trees]; eapply conv_bind; [exact Hn|now_conv].
          + exists l0; split; [exact Hy|reflexivity].
          + split; discriminate. }
      destruct Hstep as (s' & Hl & HR); exists s'; split; [|exact HR].
      eapply loop_step; [|exact Hl]; now_conv.
  Qed.

  Lemma coll_step_cur s l : coll_R s l -> exists s', (fun f => coll_next new next f s) ⇓ Ok (hd_error l, s') /\ coll_R s' (tl l) /\
    (co_cur s' = None <-> l = []).
  Proof.
    intros H; unfold coll_R in H; destruct s as [trees [it|]]; cbn [co_cur co_trees] in H.
    - destruct H as (l0 & Hy & ->).
      destruct (yields_step_inv next it l0 Hy) as (it' & Hn & Hy').
      destruct l0 as [|x l0]; cbn [hd_error tl app] in *.
      + destruct (coll_fresh trees) as (s' & Hl & HR); exists s'; split; [|exact HR].
        destruct Hl as [[|F] HF]; [specialize (HF 0 (le_n _)); discriminate|].
        destruct Hn as [G HG]; exists (Datatypes.S (F + G)); intros f Hf.
        destruct f as [|f]; [lia|]; unfold coll_next; cbn [loop]; unfold coll_body at 1; cbn [co_cur co_trees]; rewrite HG by lia; cbn [bindR].
        specialize (HF (Datatypes.S f) ltac:(lia)); cbn [loop] in HF; unfold coll_body at 1 in HF; cbn [co_cur co_trees bindR] in HF.
        exact HF.
      + exists (mkColl trees (Some it')); split; [|split].
        * apply loop_done; unfold coll_body; cbn [co_cur co_trees]; eapply conv_bind; [exact Hn|now_conv].
        * exists l0; split; [exact Hy'|reflexivity].
        * split; discriminate.
    - subst l; exact (coll_fresh trees).
  Qed.

  Lemma coll_step : step_inv (coll_next new next) coll_R.
  Proof. intros s l H; destruct (coll_step_cur s l H) as (s' & H1 & H2 & _); eauto. Qed.

  Lemma coll_yields trees : yields (coll_next new next) (coll_new trees) (flat_map L trees).
  Proof. apply (step_inv_yields _ _ coll_step); reflexivity. Qed.

  (** The panic rule: a tree is in progress exactly when something has been yielded and [None] not yet returned. *)
  Lemma coll_cur trees k s : after (coll_next new next) k (coll_new trees) s ->
    (co_cur s = None <-> k = 0 \/ length (flat_map L trees) < k) /\ coll_R s (skipn k (flat_map L trees)).
  Proof.
    intros Ha.
    assert (HR : coll_R s (skipn k (flat_map L trees))).
    { eapply (step_inv_after _ _ coll_step); [|exact Ha]; reflexivity. }
    split; [|exact HR].
    destruct k as [|k].
    { rewrite (after_fun _ _ _ _ _ Ha (after_0 _ _)); cbn; intuition. }
    destruct Ha as [os Ha].
    destruct (step_inv_calls _ _ coll_step k (coll_new trees) (flat_map L trees) eq_refl) as (s1 & Hc & HR1).
    destruct (coll_step_cur _ _ HR1) as (s2 & Hn & HR2 & Hcur).
    assert (E : s2 = s).
    { eapply (after_fun (coll_next new next) (k + 1)); eexists; [eapply calls_app; [exact Hc|eapply calls_S; [exact Hn|apply calls_0]]|].
      rewrite Nat.add_1_r; exact Ha. }
    subst s2; rewrite Hcur; split.
    - intros H; right; assert (length (skipn k (flat_map L trees)) = 0) by (rewrite H; reflexivity).
      rewrite skipn_length in H0; lia.
    - intros [H|H]; [lia|]; apply length_zero_iff_nil; rewrite skipn_length; lia.
  Qed.
End Coll.

Section CollContext.
  Context {T S A : Type} (new : T -> list N -> S) (next : nat -> S -> Res (option A * S)) (get : S -> option A).
  Hypothesis Hget : forall f s o s', next f s = Ok (o, s') -> get s' = o.
  Variable ok : T -> Prop.
  Variable L : nat -> T -> list A.
  Hypothesis HL : forall i t, ok t -> yields next (new t [N.of_nat i]) (L i t).

  Definition cc_rest (j : nat) (trees : list T) : list A := concat (mapi L j trees).

  Definition collc_R (s : collc T S) (l : list A) : Prop :=
    Forall ok (cc_trees s) /\
    exists j, (cc_trees s = [] \/ cc_index s = enc j /\ (N.of_nat (j + length (cc_trees s)) <= usize_max)%N) /\
    match cc_cur s with
    | Some it => exists l0, yields next it l0 /\ l = l0 ++ cc_rest j (cc_trees s)
    | None => l = cc_rest j (cc_trees s)
    end.

  Lemma conv_get it o it' : (fun f => next f it) ⇓ Ok (o, it') -> get it' = o.
  Proof. intros [F HF]; apply (Hget F it), HF, le_n. Qed.

  Lemma collc_fresh trees : forall j index, Forall ok trees ->
    (trees = [] \/ index = enc j /\ (N.of_nat (j + length trees) <= usize_max)%N) ->
    exists s', (fun f => loop (collc_body new next) f (mkCollc trees index None)) ⇓ Ok s' /\
      collc_get get s' = hd_error (cc_rest j trees) /\ collc_R s' (tl (cc_rest j trees)).
  Proof.
    induction trees as [|t ts IH]; intros j index Hok Hi.
    - exists (mkCollc [] (wrapping_succ index) None); split; [apply loop_done; now_conv|split; [reflexivity|]].
      split; [constructor|]; exists j; split; [left; reflexivity|reflexivity].
    - inversion Hok as [|? ? Ht Hts]; subst.
      destruct Hi as [Hi|[-> Hi]]; [discriminate|]; cbn [length] in Hi.
      assert (Ei : wrapping_succ (enc j) = N.of_nat j) by (apply enc_succ; lia).
      assert (Hi' : ts = [] \/ N.of_nat j = enc (Datatypes.S j) /\ (N.of_nat (Datatypes.S j + length ts) <= usize_max)%N)
        by (right; split; [reflexivity|rewrite Nat.add_succ_r in Hi; exact Hi]).
      destruct (yields_step_inv next _ (L j t) (HL j t Ht)) as (it' & Hn & Hy).
      unfold cc_rest; cbn [mapi concat]; fold (cc_rest (Datatypes.S j) ts).
      assert (Hstep : exists s', (fun f => loop (collc_body new next) f (mkCollc ts (N.of_nat j) (Some (new t [N.of_nat j])))) ⇓ Ok s' /\
        collc_get get s' = hd_error (L j t ++ cc_rest (Datatypes.S j) ts) /\ collc_R s' (tl (L j t ++ cc_rest (Datatypes.S j) ts))).
      { destruct (L j t) as [|x l0]; cbn [hd_error tl app] in *.
        - destruct (IH (Datatypes.S j) (N.of_nat j) Hts Hi') as (s' & Hl & HR); exists s'; split; [|exact HR].
          destruct Hl as [[|F] HF]; [specialize (HF 0 (le_n _)); discriminate|].
          destruct Hn as [G HG]; exists (Datatypes.S (F + G)); intros f Hf.
          destruct f as [|f]; [lia|]; cbn [loop]; unfold collc_body at 1; cbn [cc_cur cc_trees cc_index]; rewrite HG by lia; cbn [bindR].
          specialize (HF (Datatypes.S f) ltac:(lia)); cbn [loop] in HF; unfold collc_body at 1 in HF; cbn [cc_cur cc_trees cc_index bindR] in HF.
          exact HF.
        - exists (mkCollc ts (N.of_nat j) (Some it')); split; [|split].
          + apply loop_done; unfold collc_body; cbn [cc_cur cc_trees cc_index]; eapply conv_bind; [exact Hn|now_conv].
          + exact (conv_get _ _ _ Hn).
          + split; [exact Hts|]; exists (Datatypes.S j); split; [exact Hi'|].
            exists l0; split; [exact Hy|reflexivity]. }
      destruct Hstep as (s' & Hl & HR); exists s'; split; [|exact HR].
      eapply loop_step; [|exact Hl].
      unfold collc_body, collc_next_tree; cbn [cc_cur cc_trees cc_index]; rewrite Ei; now_conv.
  Qed.

  Lemma collc_step : step_inv (collc_next new next get) collc_R.
  Proof.
    intros [trees index cur] l (Hok & j & Hi & H); cbn [cc_cur cc_trees cc_index] in *.
    destruct cur as [it|].
    - destruct H as (l0 & Hy & ->).
      destruct (yields_step_inv next it l0 Hy) as (it' & Hn & Hy').
      destruct l0 as [|x l0]; cbn [hd_error tl app] in *.
      + destruct (collc_fresh trees j index Hok Hi) as (s' & Hl & Hg & HR); exists s'; split; [|exact HR].
        rewrite <- Hg; unfold collc_next; eapply conv_bind; [|now_conv].
        destruct Hl as [[|F] HF]; [specialize (HF 0 (le_n _)); discriminate|].
        destruct Hn as [G HG]; exists (Datatypes.S (F + G)); intros f Hf.
        destruct f as [|f]; [lia|]; unfold collc_advance; cbn [loop]; unfold collc_body at 1; cbn [cc_cur cc_trees cc_index]; rewrite HG by lia; cbn [bindR].
        specialize (HF (Datatypes.S f) ltac:(lia)); cbn [loop] in HF; unfold collc_body at 1 in HF; cbn [cc_cur cc_trees cc_index bindR] in HF.
        exact HF.
      + exists (mkCollc trees index (Some it')); split.
        * rewrite <- (conv_get _ _ _ Hn); unfold collc_next; eapply conv_bind.
          -- unfold collc_advance; apply loop_done; unfold collc_body; cbn [cc_cur cc_trees cc_index]; eapply conv_bind; [exact Hn|now_conv].
          -- now_conv.
        * split; [exact Hok|]; exists j; split; [exact Hi|]; exists l0; split; [exact Hy'|reflexivity].
    - subst l; destruct (collc_fresh trees j index Hok Hi) as (s' & Hl & Hg & HR); exists s'; split; [|exact HR].
      rewrite <- Hg; unfold collc_next; eapply conv_bind; [exact Hl|now_conv].
  Qed.

  Lemma collc_yields trees : Forall ok trees -> (N.of_nat (length trees) <= usize_max)%N ->
    yields (collc_next new next get) (mkCollc trees usize_max None) (concat (mapi L 0 trees)).
  Proof.
    intros Hok Hn; apply (step_inv_yields _ _ collc_step); split; [exact Hok|].
    exists 0; split; [right; split; [reflexivity|exact Hn]|reflexivity].
  Qed.

  Lemma collc_yields_nil index : yields (collc_next new next get) (mkCollc [] index None) [].
  Proof.
    apply (step_inv_yields _ _ collc_step); split; [constructor|]; exists 0; split; [left; reflexivity|reflexivity].
  Qed.
End CollContext.

(** ** Prepending the tree's index *)
Lemma annotate_prefix {A} (t : tree A) i : forall p ab, annotate (i :: p) ab t = tree_map (in_tree i) (annotate p ab t).
Proof.
  induction t as [v ts IH] using tree_ind'; intros p ab; cbn; f_equal.
  rewrite map_mapi; apply mapi_ext_Forall; eapply Forall_impl; [|exact IH]; cbn; intros x Hx j; apply Hx.
Qed.
Lemma bannotate_prefix {A} (t : btree A) i : forall p ab, bannotate (i :: p) ab t = btree_map (in_tree i) (bannotate p ab t).
Proof.
  induction t as [v l r IHl IHr] using btree_ind'; intros p ab; cbn.
  destruct l as [l|], r as [r|]; cbn in *; rewrite ?IHl, ?IHr; reflexivity.
Qed.

Section Each.
  Context {Nd V : Type}.

  Lemma each_nary (gvc : Nd -> V * list Nd) (nt : Nd -> tree Nd) (f : forall X, tree X -> list X) :
    (forall X Y (g : X -> Y) t, f Y (tree_map g t) = map g (f X t)) -> forall i t,
    map (context_at gvc) (f _ (annotate [i] [] (nt t))) = map (fun p => context_at gvc (in_tree i p)) (f _ (positions (nt t))).
  Proof. intros Hf i t; rewrite annotate_prefix, Hf, map_map; reflexivity. Qed.

  Lemma each_flat (gvcb : Nd -> V * (option Nd * option Nd)) (bt : Nd -> btree Nd) (f : forall X, tree X -> list X) :
    (forall X Y (g : X -> Y) t, f Y (tree_map g t) = map g (f X t)) -> forall i t,
    map (context_at gvcb) (f _ (flat (bannotate [i] [] (bt t)))) = map (fun p => context_at gvcb (in_tree i p)) (f _ (flat (bpositions (bt t)))).
  Proof. intros Hf i t; rewrite bannotate_prefix, flat_btree_map, Hf, map_map; reflexivity. Qed.

  Lemma each_in (gvcb : Nd -> V * (option Nd * option Nd)) (bt : Nd -> btree Nd) i t :
    map (context_at gvcb) (inorder (bannotate [i] [] (bt t))) = map (fun p => context_at gvcb (in_tree i p)) (inorder (bpositions (bt t))).
  Proof. rewrite bannotate_prefix, inorder_map, map_map; reflexivity. Qed.
End Each.

Lemma bind_get {S S' A} (adv : nat -> S -> Res S') (get : S' -> option A) f s o s' :
  (x <- adv f s ;; Ok (get x, x)) = Ok (o, s') -> get s' = o.
Proof. destruct (adv f s); cbn; congruence. Qed.

Lemma in_concat_mapi {A B} (f : nat -> A -> list B) y l : forall j, In y (concat (mapi f j l)) ->
  exists i x, nth_error l i = Some x /\ In y (f (j + i) x).
Proof.
  induction l as [|x l IH]; intros j; cbn; [intros []|].
  intros H; apply in_app_or in H as [H|H].
  - exists 0, x; rewrite Nat.add_0_r; split; [reflexivity|exact H].
  - destruct (IH _ H) as (i & x' & Hi & Hy); exists (S i), x'; split; [exact Hi|].
    replace (j + S i) with (S j + i) by lia; exact Hy.
Qed.

Lemma coll_attach_rule {T S A} (new : T -> S) (next : nat -> S -> Res (option A * S)) L
  (HL : forall t, yields next (new t) (L t)) (Hne : forall t, L t <> []) trees k :
  exists s, after (coll_next new next) k (coll_new trees) s /\
    forall S', coll_attach (S:=S') s =
      if k =? 0 then Ok (mkCollc trees usize_max None)
      else if k <=? length (flat_map L trees) then Panic
      else Ok (mkCollc [] usize_max None).
Proof.
  destruct (yields_after_ex _ k _ _ (coll_yields new next L HL trees)) as [s Hs]; exists s; split; [exact Hs|]; intros S'.
  destruct (coll_cur new next L HL trees k s Hs) as [Hc HR].
  destruct k as [|k].
  { rewrite (after_fun _ _ _ _ _ Hs (after_0 _ _)); reflexivity. }
  change (Datatypes.S k =? 0) with false; cbv iota.
  destruct (Nat.leb_spec (Datatypes.S k) (length (flat_map L trees))) as [Hk|Hk]; unfold coll_attach, coll_R in *.
  - destruct (co_cur s); [reflexivity|]; destruct Hc as [Hc _]; specialize (Hc eq_refl); lia.
  - rewrite (proj2 Hc (or_intror Hk)) in *.
    destruct (co_trees s) as [|t ts]; [reflexivity|]; exfalso.
    rewrite skipn_all2 in HR by lia; cbn in HR; symmetry in HR; apply app_eq_nil in HR; exact (Hne t (proj1 HR)).
Qed.

Lemma length_nodes {T A B} (f : T -> list A) (g : A -> B) trees :
  length (flat_map (fun t => map g (f t)) trees) = length (flat_map f trees).
Proof. induction trees as [|t ts IH]; cbn; [reflexivity|]; rewrite !app_length, map_length, IH; reflexivity. Qed.

Lemma in_each {T A B} (h : T -> list A) (g : nat -> A -> B) trees c :
  In c (each (fun i t => map (g i) (h t)) trees) ->
  exists i t q, nth_error trees i = Some t /\ In q (h t) /\ c = g i q.
Proof.
  intros Hin; destruct (in_concat_mapi _ _ _ _ Hin) as (i & t & Hi & Hc).
  apply in_map_iff in Hc as (q & <- & Hq); exists i, t, q; auto.
Qed.

Section Nonempty.
  Context {Nd V C : Type} (gv : Nd -> V * C) (nt : Nd -> tree Nd) (bt : Nd -> btree Nd).
  Lemma map_nonempty {A B} (f : A -> B) l : l <> [] -> map f l <> [].
  Proof. destruct l; [congruence|discriminate]. Qed.
  Lemma preorder_nonempty t : map (nval gv) (preorder (nt t)) <> [].
  Proof. destruct (nt t); discriminate. Qed.
  Lemma perm_nonempty {A} (l l' : list A) : Permutation l' l -> l <> [] -> l' <> [].
  Proof. intros HP Hl ->; apply Hl, Permutation_nil, HP. Qed.
  Lemma bfs_nonempty t : map (nval gv) (bfs (nt t)) <> [].
  Proof. eapply perm_nonempty; [apply Permutation_map, bfs_perm|apply preorder_nonempty]. Qed.
  Lemma postorder_nonempty t : map (nval gv) (postorder (nt t)) <> [].
  Proof. eapply perm_nonempty; [apply Permutation_map, postorder_perm|apply preorder_nonempty]. Qed.
  Lemma inorder_nonempty t : map (nval gv) (inorder (bt t)) <> [].
  Proof. eapply perm_nonempty; [apply Permutation_map, inorder_perm|]. destruct (bt t); discriminate. Qed.
End Nonempty.
