(** * PipePure: walks with closures that have no state are whole-tree operations. *)
From Verif Require Import Prelim PrelimFacts Spec SpecFacts SpecPipe SpecObs ModelNode ModelPipe PipeCore PipeEnd.

(** ** The walk of a decision without state *)
Section PWalk.
  Context {X B : Type}.
  Variable h : X -> outcome B.
  Fixpoint pwalk (t : tree X) : option (tree B) :=
    match t with
    | TNode x ts =>
        match h x with
        | Drop => None
        | Keep b false => Some (TNode b [])
        | Keep b true => Some (TNode b (flat_map (fun t => opt_list (pwalk t)) ts))
        end
    end.
  Fixpoint bpwalk (t : btree X) : option (btree B) :=
    match t with
    | BNode x l r =>
        match h x with
        | Drop => None
        | Keep b false => Some (BNode b None None)
        | Keep b true => Some (BNode b (match l with Some t => bpwalk t | None => None end)
                                       (match r with Some t => bpwalk t | None => None end))
        end
    end.

  Lemma pwalk_node x ts : pwalk (TNode x ts) = match h x with
        | Drop => None
        | Keep b false => Some (TNode b [])
        | Keep b true => Some (TNode b (flat_map (fun t => opt_list (pwalk t)) ts))
        end.
  Proof. reflexivity. Qed.

  Lemma walk_pure {G} (vis : G -> X -> G * outcome B) : (forall g x, snd (vis g x) = h x) ->
    forall t g, snd (walk vis g t) = pwalk t.
  Proof.
    intros Hv; induction t as [x ts IH] using tree_ind'; intros g; rewrite walk_node, pwalk_node.
    specialize (Hv g x); destruct (vis g x) as [g1 o]; cbn in Hv; subst o; destruct (h x) as [|b [|]]; try reflexivity.
    assert (E : forall g, snd (walk_list (walk vis) g ts) = flat_map (fun t => opt_list (pwalk t)) ts).
    { induction IH as [|t ts Ht _ IHl]; intros g0; [reflexivity|]; rewrite walk_list_cons; cbn [flat_map].
      rewrite <- (Ht g0); destruct (walk vis g0 t) as [g2 o]; rewrite <- (IHl g2).
      destruct (walk_list (walk vis) g2 ts); reflexivity. }
    specialize (E g1); destruct (walk_list (walk vis) g1 ts); cbn in *; rewrite E; reflexivity.
  Qed.

  Lemma bwalk_pure {G} (vis : G -> X -> G * outcome B) : (forall g x, snd (vis g x) = h x) ->
    forall t g, snd (bwalk vis g t) = bpwalk t.
  Proof.
    intros Hv; induction t as [x l r IHl IHr] using btree_ind'; intros g; rewrite bwalk_node; cbn [bpwalk].
    specialize (Hv g x); destruct (vis g x) as [g1 o]; cbn in Hv; subst o; destruct (h x) as [|b [|]]; try reflexivity.
    assert (El : forall g, snd (walk_side (bwalk vis) g l) = match l with Some t => bpwalk t | None => None end)
      by (intros g0; destruct l; cbn in *; auto).
    assert (Er : forall g, snd (walk_side (bwalk vis) g r) = match r with Some t => bpwalk t | None => None end)
      by (intros g0; destruct r; cbn in *; auto).
    rewrite <- (El g1); destruct (walk_side (bwalk vis) g1 l) as [g2 l'].
    rewrite <- (Er g2); destruct (walk_side (bwalk vis) g2 r) as [g3 r']; reflexivity.
  Qed.
End PWalk.

Lemma pwalk_ext_in {X B} (h h' : X -> outcome B) t : (forall x, In x (preorder t) -> h x = h' x) -> pwalk h t = pwalk h' t.
Proof.
  induction t as [x ts IH] using tree_ind'; intros Hh; rewrite !pwalk_node, (Hh x) by (left; reflexivity).
  destruct (h' x) as [|b [|]]; try reflexivity; do 2 f_equal.
  assert (Hh' : forall y, In y (flat_map preorder ts) -> h y = h' y) by (intros; apply Hh; right; assumption); clear Hh.
  induction IH as [|t ts Ht _ IHl]; [reflexivity|]; cbn [flat_map] in *; rewrite Ht, IHl; try reflexivity;
    intros; apply Hh'; apply in_or_app; auto.
Qed.

(** ** One decision after another *)
Definition pthen {X A B} (h : X -> outcome A) (k : A -> outcome B) (x : X) : outcome B :=
  match h x with
  | Drop => Drop
  | Keep a d => match k a with Drop => Drop | Keep b d' => Keep b (d && d') end
  end.

Lemma flat_map_obind {X A B} (f : X -> option A) (k : A -> option B) ts :
  flat_map (fun t => opt_list (k t)) (flat_map (fun t => opt_list (f t)) ts) = flat_map (fun t => opt_list (obind (f t) k)) ts.
Proof.
  induction ts as [|t ts IH]; [reflexivity|]; cbn [flat_map]; rewrite flat_map_app, IH.
  destruct (f t); cbn; rewrite ?app_nil_r; reflexivity.
Qed.

Lemma pwalk_then {X A B} (h : X -> outcome A) (k : A -> outcome B) t :
  pwalk (pthen h k) t = obind (pwalk h t) (pwalk k).
Proof.
  induction t as [x ts IH] using tree_ind'; rewrite !pwalk_node; unfold pthen at 1.
  destruct (h x) as [|a [|]]; [reflexivity| |]; cbn [obind]; rewrite pwalk_node; destruct (k a) as [|b [|]]; try reflexivity.
  cbn [andb]; rewrite flat_map_obind; do 2 f_equal.
  induction IH as [|t ts Ht _ IHl]; [reflexivity|]; cbn [flat_map]; rewrite Ht, IHl; reflexivity.
Qed.

Lemma bpwalk_then {X A B} (h : X -> outcome A) (k : A -> outcome B) t :
  bpwalk (pthen h k) t = obind (bpwalk h t) (bpwalk k).
Proof.
  induction t as [x l r IHl IHr] using btree_ind'; cbn [bpwalk]; unfold pthen at 1.
  destruct (h x) as [|a [|]]; [reflexivity| |]; cbn [obind bpwalk]; destruct (k a) as [|b [|]]; try reflexivity.
  cbn [andb]; do 2 f_equal.
  - destruct l as [l|]; cbn in *; [exact IHl|reflexivity].
  - destruct r as [r|]; cbn in *; [exact IHr|reflexivity].
Qed.

(** ** The single operations *)
Lemma pwalk_map {X B} (f : X -> B) t : pwalk (fun x => Keep (f x) true) t = Some (tree_map f t).
Proof.
  induction t as [x ts IH] using tree_ind'; rewrite pwalk_node; cbn [tree_map]; do 2 f_equal.
  induction IH as [|t ts Ht _ IHl]; [reflexivity|]; cbn [flat_map map]; rewrite Ht, IHl; reflexivity.
Qed.
Lemma bpwalk_map {X B} (f : X -> B) t : bpwalk (fun x => Keep (f x) true) t = Some (btree_map f t).
Proof.
  induction t as [x l r IHl IHr] using btree_ind'; cbn [bpwalk btree_map]; do 2 f_equal; [destruct l|destruct r]; cbn in *; auto.
Qed.

Section Places.
  Context {A Nd : Type}.
  Implicit Types t : tree (A * pos Nd).

  (** The recorded positions are the positions in this tree. *)
  Fixpoint placed (p : list nat) (t : tree (A * pos Nd)) : Prop :=
    match t with
    | TNode ax ts => pos_path (snd ax) = p /\
        (fix all i l := match l with [] => True | t :: l' => placed (p ++ [i]) t /\ all (S i) l' end) 0 ts
    end.
  Fixpoint placed_list (p : list nat) (i : nat) (l : list (tree (A * pos Nd))) : Prop :=
    match l with [] => True | t :: l' => placed (p ++ [i]) t /\ placed_list p (S i) l' end.
  Lemma placed_node p ax ts : placed p (TNode ax ts) <-> pos_path (snd ax) = p /\ placed_list p 0 ts.
  Proof.
    cbn; assert (E : forall l i, (fix all i l := match l with [] => True | t :: l' => placed (p ++ [i]) t /\ all (S i) l' end) i l <-> placed_list p i l)
      by (induction l as [|t l IH]; intros i; cbn; [tauto|rewrite IH; tauto]).
    rewrite E; tauto.
  Qed.

  Lemma prune_pure (f : A -> bool) t : forall p,
    option_map (tree_map fst) (pwalk (fun ax => if f (fst ax) then Drop else Keep ax true) t) = prune_at (fun _ => f) p (tree_map fst t).
  Proof.
    induction t as [[a x] ts IH] using tree_ind'; intros p; rewrite pwalk_node; cbn [tree_map prune_at fst].
    destruct (f a); [reflexivity|]; cbn [option_map tree_map fst]; do 2 f_equal.
    generalize 0 as i; induction IH as [|t ts Ht _ IHl]; intros i; [reflexivity|].
    cbn [map flat_map]; rewrite mapi_cons; cbn [concat]; rewrite map_app, (IHl (S i)), <- (Ht (p ++ [i])).
    destruct (pwalk _ t); reflexivity.
  Qed.

  Lemma prune_path_pure (f : list nat -> A -> bool) t : forall p, placed p t ->
    option_map (tree_map fst) (pwalk (fun ax => if f (pos_path (snd ax)) (fst ax) then Drop else Keep ax true) t) =
    prune_at f p (tree_map fst t).
  Proof.
    induction t as [[a x] ts IH] using tree_ind'; intros p Hp; apply placed_node in Hp as [Hx Hp]; rewrite pwalk_node; cbn [tree_map prune_at fst].
    cbn [snd] in *; rewrite Hx; destruct (f p a); [reflexivity|]; cbn [option_map tree_map fst]; do 2 f_equal.
    revert Hp; generalize 0 as i; induction IH as [|t ts Ht _ IHl]; intros i Hp; [reflexivity|]; destruct Hp as [Hp1 Hp].
    cbn [map flat_map]; rewrite mapi_cons; cbn [concat]; rewrite map_app, (IHl (S i) Hp), <- (Ht (p ++ [i]) Hp1).
    destruct (pwalk _ t); reflexivity.
  Qed.

  Definition cut (d : N) (ax : A * pos Nd) : outcome (A * pos Nd) :=
    Keep ax (negb (N.of_nat (length (pos_path (snd ax))) =? d)%N).

  Lemma cut_pure d t : forall p, below p t -> (N.of_nat (length p) <= d)%N ->
    exists t', pwalk (cut d) t = Some t' /\ tree_map fst t' = truncate (N.to_nat d - length p) (tree_map fst t).
  Proof.
    induction t as [[a x] ts IH] using tree_ind'; intros p Hb Hd; apply below_node in Hb as [Hx Hb].
    rewrite pwalk_node; unfold cut at 1; cbn [snd]; rewrite Hx.
    destruct (N.eqb_spec (N.of_nat (length p)) d) as [E|E]; cbn [negb].
    - eexists; split; [reflexivity|]; cbn [tree_map truncate map fst].
      replace (N.to_nat d - length p) with 0 by lia; reflexivity.
    - eexists; split; [reflexivity|]; cbn [tree_map truncate fst].
      destruct (N.to_nat d - length p) as [|d'] eqn:Ed; [lia|]; cbn [truncate]; f_equal.
      induction IH as [|t ts Ht _ IHl]; [reflexivity|]; inversion Hb as [|? ? [i Hi] Hb']; subst.
      destruct (Ht _ Hi) as (t' & E1 & E2); [rewrite app_length; cbn; lia|].
      cbn [flat_map map]; rewrite E1; cbn [opt_list app map]; rewrite E2, (IHl Hb'); do 2 f_equal.
      rewrite app_length; cbn; lia.
  Qed.

  Lemma cut_placed d t : forall p t', pwalk (cut d) t = Some t' -> placed p t -> placed p t'.
  Proof.
    assert (Hnn : forall t, exists t', pwalk (cut d) t = Some t').
    { intros [ax ts]; rewrite pwalk_node; unfold cut at 1; destruct (negb _); eauto. }
    induction t as [ax ts IH] using tree_ind'; intros p t'; rewrite pwalk_node; unfold cut at 1.
    intros E Hp; apply placed_node in Hp as [Hx Hp].
    destruct (negb _); injection E as <-; apply placed_node; split; auto; [|exact I].
    revert Hp; generalize 0 as i; induction IH as [|t ts Ht _ IHl]; intros i Hp; [exact I|]; destruct Hp as [Hp1 Hp].
    cbn [flat_map]; destruct (Hnn t) as [t' E]; rewrite E; cbn; split; eauto.
  Qed.
End Places.

Lemma map_placed {A B Nd} (f : A -> B) t : forall p, placed p t -> placed p (tree_map (fun ax : A * pos Nd => (f (fst ax), snd ax)) t).
Proof.
  induction t as [ax ts IH] using tree_ind'; intros p Hp; apply placed_node in Hp as [Hx Hp].
  cbn [tree_map]; apply placed_node; split; [exact Hx|].
  revert Hp; generalize 0 as i; induction IH as [|t ts Ht _ IHl]; intros i Hp; [exact I|]; destruct Hp as [Hp1 Hp].
  cbn; split; auto.
Qed.


(** ** Chains *)
Section Ops.
  Context {Nd V : Type} (val : Nd -> V).

  Fixpoint pvis {A} (c : ops V A) : pos Nd -> outcome A :=
    match c in ops _ A return pos Nd -> outcome A with
    | o_start => fun x => Keep (val (pos_here x)) true
    | o_map c' f => fun x => match pvis c' x with Drop => Drop | Keep a d => Keep (f a) d end
    | o_prune c' f => fun x => match pvis c' x with Drop => Drop | Keep a d => if f a then Drop else Keep a d end
    | o_prune_path c' f => fun x => match pvis c' x with Drop => Drop | Keep a d => if f (map N.of_nat (pos_path x)) a then Drop else Keep a d end
    | o_prune_depth c' lim => fun x => match pvis c' x with Drop => Drop | Keep a d => Keep a (d && negb (N.of_nat (length (pos_path x)) =? lim)%N) end
    end.

  Lemma pvis_ok {A} (c : ops V A) gs x : snd (at_node val (stages c) gs x) = pvis c x.
  Proof.
    unfold at_node; induction c as [|A B c IH f|A c IH f|A c IH f|A c IH lim]; cbn [stages visit_node pvis clos] in *.
    - reflexivity.
    - rewrite <- (IH (fst gs)); destruct (visit_node _ _ _ _ _) as [g1 [|a d]]; reflexivity.
    - rewrite <- (IH (fst gs)); destruct (visit_node _ _ _ _ _) as [g1 [|a d]]; cbn; [reflexivity|]; destruct (f a); reflexivity.
    - rewrite <- (IH (fst gs)); destruct (visit_node _ _ _ _ _) as [g1 [|a d]]; cbn; [reflexivity|]; destruct (f _ a); reflexivity.
    - rewrite <- (IH gs); destruct (visit_node _ _ _ _ _) as [g1 [|a d]]; reflexivity.
  Qed.

  Definition pwith {A} (h : pos Nd -> outcome A) (x : pos Nd) : outcome (A * pos Nd) :=
    match h x with Drop => Drop | Keep a d => Keep (a, x) d end.

  Lemma pwith_ok {A} (h : pos Nd -> outcome A) G (vis : G -> pos Nd -> G * outcome A) :
    (forall g x, snd (vis g x) = h x) -> forall g x, snd (with_node vis g x) = pwith h x.
  Proof. intros H g x; unfold with_node, pwith; rewrite <- (H g x); destruct (vis g x) as [g1 [|a d]]; reflexivity. Qed.

  (** The stage alone, on a value with its position. *)
  Lemma step_map {A B} (c : ops V A) (f : A -> B) x :
    pwith (pvis (o_map c f)) x = pthen (pwith (pvis c)) (fun ax => Keep (f (fst ax), snd ax) true) x.
  Proof. unfold pthen, pwith; cbn; destruct (pvis c x) as [|a d]; cbn; rewrite ?andb_true_r; reflexivity. Qed.
  Lemma step_prune {A} (c : ops V A) f x :
    pwith (pvis (o_prune c f)) x = pthen (pwith (pvis c)) (fun ax => if f (fst ax) then Drop else Keep ax true) x.
  Proof. unfold pthen, pwith; cbn; destruct (pvis c x) as [|a d]; cbn; [reflexivity|]; destruct (f a); rewrite ?andb_true_r; reflexivity. Qed.
  Lemma step_prune_path {A} (c : ops V A) f x :
    pwith (pvis (o_prune_path c f)) x =
    pthen (pwith (pvis c)) (fun ax => if f (map N.of_nat (pos_path (snd ax))) (fst ax) then Drop else Keep ax true) x.
  Proof. unfold pthen, pwith; cbn; destruct (pvis c x) as [|a d]; cbn; [reflexivity|]; destruct (f _ a); rewrite ?andb_true_r; reflexivity. Qed.
  Lemma step_depth {A} (c : ops V A) lim x :
    pwith (pvis (o_prune_depth c lim)) x = pthen (pwith (pvis c)) (cut lim) x.
  Proof. unfold pthen, pwith, cut; cbn; destruct (pvis c x) as [|a d]; reflexivity. Qed.

  Lemma pwalk_below {A} (c : ops V A) t t' : pwalk (pwith (pvis c)) (positions t) = Some t' -> below [] t'.
  Proof.
    intros E; apply (walk_below (at_node val (stages c)) t [] [] (clos_init (stages c))).
    rewrite (walk_pure (pwith (pvis c))); [exact E|]; apply pwith_ok; apply pvis_ok.
  Qed.

  Lemma positions_placed t : forall p ab, placed p (tree_map (fun x => (val (pos_here x), x)) (annotate p ab t)).
  Proof.
    induction t as [v ts IH] using tree_ind'; intros p ab; cbn [annotate tree_map]; apply placed_node; split; [reflexivity|].
    generalize 0 as i; induction IH as [|t ts Ht _ IHl]; intros i; [exact I|]; rewrite mapi_cons; cbn; split; auto.
  Qed.

  Lemma ops_walk {A} (c : ops V A) t : true_paths (stages c) = true ->
    option_map (tree_map fst) (pwalk (pwith (pvis c)) (positions t)) = apply_ops c (tree_map val t) /\
    (has_prune (stages c) = false -> forall t', pwalk (pwith (pvis c)) (positions t) = Some t' -> placed [] t').
  Proof.
    induction c as [|A B c IH f|A c IH f|A c IH f|A c IH lim]; intros Ht; cbn [stages true_paths has_prune apply_ops] in *.
    - assert (E : pwalk (pwith (pvis o_start)) (positions t) = Some (tree_map (fun x => (val (pos_here x), x)) (positions t))) by (apply pwalk_map).
      rewrite E; split.
      + cbn [option_map]; rewrite tree_map_map; cbn [fst]; f_equal.
        rewrite <- (tree_map_map pos_here val); unfold positions; rewrite annotate_here; reflexivity.
      + intros _ t' E'; injection E' as <-; apply positions_placed.
    - destruct (IH Ht) as [IH1 IH2].
      rewrite (pwalk_ext_in _ _ _ (fun x _ => step_map c f x)), pwalk_then, <- IH1.
      destruct (pwalk (pwith (pvis c)) (positions t)) as [t1|]; [|split; [reflexivity|discriminate]].
      cbn [obind]; rewrite pwalk_map; split.
      + cbn [option_map]; rewrite !tree_map_map; reflexivity.
      + intros Hn t' E'; injection E' as <-; apply map_placed, IH2; auto.
    - destruct (IH Ht) as [IH1 IH2]; split; [|discriminate].
      rewrite (pwalk_ext_in _ _ _ (fun x _ => step_prune c f x)), pwalk_then, <- IH1.
      destruct (pwalk (pwith (pvis c)) (positions t)) as [t1|]; [|reflexivity].
      cbn [obind]; apply prune_pure.
    - apply andb_true_iff in Ht as [Ht Hn]; apply negb_true_iff in Hn; destruct (IH Ht) as [IH1 IH2]; split; [|discriminate].
      rewrite (pwalk_ext_in _ _ _ (fun x _ => step_prune_path c f x)), pwalk_then, <- IH1.
      destruct (pwalk (pwith (pvis c)) (positions t)) as [t1|]; [|reflexivity].
      cbn [obind]; apply (prune_path_pure (fun p => f (map N.of_nat p))); auto.
    - destruct (IH Ht) as [IH1 IH2].
      rewrite (pwalk_ext_in _ _ _ (fun x _ => step_depth c lim x)), pwalk_then, <- IH1.
      destruct (pwalk (pwith (pvis c)) (positions t)) as [t1|] eqn:E1; [|split; [reflexivity|discriminate]].
      cbn [obind]; split.
      + destruct (cut_pure lim t1 [] (pwalk_below _ _ _ E1)) as (t' & E2 & E3); [cbn; lia|].
        rewrite E2; cbn [option_map]; rewrite E3; cbn [length]; rewrite Nat.sub_0_r; reflexivity.
      + intros Hn t' E'; eapply cut_placed; eauto.
  Qed.

  Lemma ops_collect {A} (c : ops V A) t : true_paths (stages c) = true ->
    snd (walk (at_node val (stages c)) (clos_init (stages c)) (positions t)) = apply_ops c (tree_map val t).
  Proof.
    intros Ht; rewrite walk_visx.
    rewrite <- (proj1 (ops_walk c t Ht)), <- (walk_pure _ _ (pwith_ok _ _ _ (pvis_ok c)) (positions t) (clos_init (stages c))).
    destruct (walk _ _ _); reflexivity.
  Qed.
End Ops.

(** ** Binary chains: positions are never lost *)
Section BOps.
  Context {Nd V : Type} (val : Nd -> V).

  Lemma bpwalk_ext {X B} (h h' : X -> outcome B) t : (forall x, h x = h' x) -> bpwalk h t = bpwalk h' t.
  Proof.
    intros Hh; induction t as [x l r IHl IHr] using btree_ind'; cbn [bpwalk]; rewrite Hh.
    destruct (h' x) as [|b [|]]; try reflexivity; do 2 f_equal; [destruct l|destruct r]; cbn in *; auto.
  Qed.

  Lemma bprune_pure {A} (f : A -> bool) (t : btree (A * pos Nd)) : forall p,
    option_map (btree_map fst) (bpwalk (fun ax => if f (fst ax) then Drop else Keep ax true) t) = bprune_at (fun _ => f) p (btree_map fst t).
  Proof.
    induction t as [[a x] l r IHl IHr] using btree_ind'; intros p; cbn [bpwalk btree_map bprune_at fst].
    destruct (f a); [reflexivity|]; cbn [option_map btree_map fst]; do 2 f_equal.
    - destruct l as [l|]; cbn in *; [apply IHl|reflexivity].
    - destruct r as [r|]; cbn in *; [apply IHr|reflexivity].
  Qed.

  Lemma bprune_path_pure {A} (f : list nat -> A -> bool) (t : btree (A * pos Nd)) : forall p, bbelow p t ->
    option_map (btree_map fst) (bpwalk (fun ax => if f (pos_path (snd ax)) (fst ax) then Drop else Keep ax true) t) =
    bprune_at f p (btree_map fst t).
  Proof.
    induction t as [[a x] l r IHl IHr] using btree_ind'; intros p (Hx & Hl & Hr); cbn [bpwalk btree_map bprune_at fst snd] in *.
    rewrite Hx; destruct (f p a); [reflexivity|]; cbn [option_map btree_map fst]; do 2 f_equal.
    - destruct l as [l|]; cbn in *; [apply IHl; exact Hl|reflexivity].
    - destruct r as [r|]; cbn in *; [apply IHr; exact Hr|reflexivity].
  Qed.

  Lemma bcut_pure {A} d (t : btree (A * pos Nd)) : forall p, bbelow p t -> (N.of_nat (length p) <= d)%N ->
    exists t', bpwalk (cut d) t = Some t' /\ btree_map fst t' = btruncate (N.to_nat d - length p) (btree_map fst t).
  Proof.
    induction t as [[a x] l r IHl IHr] using btree_ind'; intros p (Hx & Hl & Hr) Hd; cbn [bpwalk btree_map btruncate fst snd] in *.
    unfold cut at 1; cbn [snd]; rewrite Hx.
    destruct (N.eqb_spec (N.of_nat (length p)) d) as [E|E]; cbn [negb].
    - eexists; split; [reflexivity|]; cbn; replace (N.to_nat d - length p) with 0 by lia; reflexivity.
    - eexists; split; [reflexivity|]; cbn [btree_map fst].
      destruct (N.to_nat d - length p) as [|d'] eqn:Ed; [lia|]; cbn [btruncate]; f_equal.
      + destruct l as [l|]; cbn in *; [|reflexivity].
        destruct (IHl _ Hl) as (t' & E1 & E2); [rewrite app_length; cbn; lia|]; rewrite E1; cbn; rewrite E2; do 2 f_equal.
        rewrite app_length; cbn; lia.
      + destruct r as [r|]; cbn in *; [|reflexivity].
        destruct (IHr _ Hr) as (t' & E1 & E2); [rewrite app_length; cbn; lia|]; rewrite E1; cbn; rewrite E2; do 2 f_equal.
        rewrite app_length; cbn; lia.
  Qed.

  Lemma bpwalk_below {A} (c : ops V A) t t' : bpwalk (pwith (pvis val c)) (bpositions t) = Some t' -> bbelow [] t'.
  Proof.
    intros E; apply (bwalk_below (at_node val (stages c)) t [] [] (clos_init (stages c))).
    rewrite (bwalk_pure (pwith (pvis val c))); [exact E|]; apply pwith_ok; apply pvis_ok.
  Qed.

  Lemma bops_walk {A} (c : ops V A) t :
    option_map (btree_map fst) (bpwalk (pwith (pvis val c)) (bpositions t)) = bapply_ops c (btree_map val t).
  Proof.
    induction c as [|A B c IH f|A c IH f|A c IH f|A c IH lim]; cbn [bapply_ops].
    - assert (E : bpwalk (pwith (pvis val o_start)) (bpositions t) = Some (btree_map (fun x => (val (pos_here x), x)) (bpositions t))) by (apply bpwalk_map).
      rewrite E; cbn [option_map]; rewrite btree_map_map; cbn [fst]; f_equal.
      rewrite <- (btree_map_map pos_here val); unfold bpositions; rewrite bannotate_here; reflexivity.
    - rewrite (bpwalk_ext _ _ _ (step_map val c f)), bpwalk_then, <- IH.
      destruct (bpwalk (pwith (pvis val c)) (bpositions t)) as [t1|]; [|reflexivity].
      cbn [obind]; rewrite bpwalk_map; cbn [option_map]; rewrite !btree_map_map; reflexivity.
    - rewrite (bpwalk_ext _ _ _ (step_prune val c f)), bpwalk_then, <- IH.
      destruct (bpwalk (pwith (pvis val c)) (bpositions t)) as [t1|]; [|reflexivity].
      cbn [obind]; apply bprune_pure.
    - rewrite (bpwalk_ext _ _ _ (step_prune_path val c f)), bpwalk_then, <- IH.
      destruct (bpwalk (pwith (pvis val c)) (bpositions t)) as [t1|] eqn:E1; [|reflexivity].
      cbn [obind]; apply (bprune_path_pure (fun p => f (map N.of_nat p))); eapply bpwalk_below; exact E1.
    - rewrite (bpwalk_ext _ _ _ (step_depth val c lim)), bpwalk_then, <- IH.
      destruct (bpwalk (pwith (pvis val c)) (bpositions t)) as [t1|] eqn:E1; [|reflexivity].
      cbn [obind]; destruct (bcut_pure lim t1 [] (bpwalk_below _ _ _ E1)) as (t' & E2 & E3); [cbn; lia|].
      rewrite E2; cbn [option_map]; rewrite E3; cbn [length]; rewrite Nat.sub_0_r; reflexivity.
  Qed.
End BOps.
