(** * PipeCore: what it means for a pipeline object to perform a walk, and how stages compose. *)
From Verif Require Import Prelim PrelimFacts Spec SpecFacts SpecPipe ModelNode ModelPre ModelPipe ProofsPlain.

(** The number of nodes of a list of trees. *)
Fixpoint tsize {X} (t : tree X) : nat := match t with TNode _ ts => S (list_sum (map tsize ts)) end.
Definition fsize {X} (ts : list (tree X)) : nat := list_sum (map tsize ts).

Lemma fsize_app {X} (a b : list (tree X)) : fsize (a ++ b) = fsize a + fsize b.
Proof. unfold fsize; rewrite map_app, list_sum_app; reflexivity. Qed.
Lemma fsize_cons {X} (t : tree X) b : fsize (t :: b) = tsize t + fsize b.
Proof. reflexivity. Qed.
Lemma tsize_node {X} (x : X) ts : tsize (TNode x ts) = S (fsize ts).
Proof. reflexivity. Qed.
Lemma tsize_preorder {X} (t : tree X) : tsize t = length (preorder t).
Proof.
  induction t as [v ts IH] using tree_ind'; rewrite tsize_node; cbn [preorder length]; f_equal.
  induction IH as [|t l Ht _ IHl]; [reflexivity|]; rewrite fsize_cons, IHl, Ht; cbn; rewrite app_length; reflexivity.
Qed.

Lemma walk_list_nil {G X B} (w : G -> tree X -> G * option (tree B)) g : walk_list w g [] = (g, []).
Proof. reflexivity. Qed.
Lemma walk_list_cons {G X B} (w : G -> tree X -> G * option (tree B)) g t ts :
  walk_list w g (t :: ts) = let '(g1, o) := w g t in let '(g2, os) := walk_list w g1 ts in (g2, opt_list o ++ os).
Proof. reflexivity. Qed.
Lemma walk_node {G X B} (visit : G -> X -> G * outcome B) g x ts :
  walk visit g (TNode x ts) =
  match visit g x with
  | (g1, Drop) => (g1, None)
  | (g1, Keep b false) => (g1, Some (TNode b []))
  | (g1, Keep b true) => let '(g2, ts') := walk_list (walk visit) g1 ts in (g2, Some (TNode b ts'))
  end.
Proof. reflexivity. Qed.
Global Arguments walk_list : simpl never.

(** ** One step of a walk: find the next kept node of a list of trees still to be visited *)
Section Step.
  Context {G X A : Type}.
  Variable vis : G -> X -> G * outcome A.

  (** Result: the kept node, its children still to be visited, the trees after it, the new closure states. *)
  Fixpoint vstep (g : G) (todo : list (tree X)) : option (A * X) * list (tree X) * list (tree X) * G :=
    match todo with
    | [] => (None, [], [], g)
    | TNode x ts :: r =>
        match vis g x with
        | (g', Drop) => vstep g' r
        | (g', Keep a down) => (Some (a, x), if down then ts else [], r, g')
        end
    end.

  Lemma vstep_size g todo : forall o d r g', vstep g todo = (o, d, r, g') ->
    match o with Some _ => fsize (d ++ r) < fsize todo | None => d = [] /\ r = [] end.
  Proof.
    revert g; induction todo as [|[x ts] todo IH]; intros g o d r g' E; cbn in E.
    - injection E as <- <- <- <-; auto.
    - destruct (vis g x) as [g1 [|a down]].
      + specialize (IH _ _ _ _ _ E); destruct o; [|exact IH].
        rewrite fsize_cons, tsize_node; lia.
      + injection E as <- <- <- <-.
        rewrite fsize_cons, fsize_app, tsize_node; destruct down; cbn; lia.
  Qed.

  Lemma vstep_len g todo : forall o d r g', vstep g todo = (o, d, r, g') ->
    match o with Some _ => length r < length todo | None => True end.
  Proof.
    revert g; induction todo as [|[x ts] todo IH]; intros g o d r g' E; cbn in E.
    - injection E as <- <- <- <-; auto.
    - destruct (vis g x) as [g1 [|a down]].
      + specialize (IH _ _ _ _ _ E); destruct o; cbn; lia.
      + injection E as <- <- <- <-; cbn; lia.
  Qed.

  Local Notation with_node := (with_node vis).

  Lemma walk_list_app {B} (w : G -> tree X -> G * option (tree B)) g a b :
    walk_list w g (a ++ b) =
    let '(g1, o1) := walk_list w g a in let '(g2, o2) := walk_list w g1 b in (g2, o1 ++ o2).
  Proof.
    revert g; induction a as [|t a IH]; intros g; cbn [app].
    - rewrite walk_list_nil; destruct (walk_list w g b); reflexivity.
    - rewrite !walk_list_cons; destruct (w g t) as [g1 o1]; rewrite IH.
      destruct (walk_list w g1 a) as [g2 o2], (walk_list w g2 b) as [g3 o3].
      rewrite app_assoc; reflexivity.
  Qed.

  (** A step of the walk: the first node in preorder of the result, and the walk of the rest. *)
  Lemma walk_vstep g todo :
    match vstep g todo with
    | (None, _, _, g') => walk_all with_node g todo = (g', [])
    | (Some (a, x), d, r, g') =>
        let '(g1, o1) := walk_all with_node g' d in
        let '(g2, o2) := walk_all with_node g1 r in
        walk_all with_node g todo = (g2, TNode (a, x) o1 :: o2)
    end.
  Proof.
    unfold walk_all; revert g; induction todo as [|[x ts] todo IH]; intros g; [reflexivity|].
    rewrite walk_list_cons, walk_node; cbn [vstep].
    replace (with_node g x) with (match vis g x with (g', Drop) => (g', Drop) | (g', Keep a down) => (g', Keep (a, x) down) end) by reflexivity.
    destruct (vis g x) as [g1 [|a down]].
    - specialize (IH g1).
      destruct (vstep g1 todo) as [[[[[a y]|] d] r] g'] eqn:E.
      + destruct (walk_list (walk with_node) g' d) as [g2 o1], (walk_list (walk with_node) g2 r) as [g3 o2].
        rewrite IH; reflexivity.
      + rewrite IH; reflexivity.
    - destruct down.
      + destruct (walk_list (walk with_node) g1 ts) as [g2 o1].
        destruct (walk_list (walk with_node) g2 todo) as [g3 o2]; reflexivity.
      + rewrite walk_list_nil; destruct (walk_list (walk with_node) g1 todo) as [g3 o2]; reflexivity.
  Qed.
End Step.

(** Forgetting the visited node. *)
Lemma walk_list_map {G X A B} (w : G -> tree X -> G * option (tree A)) (w' : G -> tree X -> G * option (tree B)) (h : tree A -> tree B) ts :
  Forall (fun t => forall g, w' g t = let '(g1, o) := w g t in (g1, option_map h o)) ts ->
  forall g, walk_list w' g ts = let '(g1, os) := walk_list w g ts in (g1, map h os).
Proof.
  induction 1 as [|t ts Ht _ IH]; intros g; [reflexivity|].
  rewrite !walk_list_cons, Ht; destruct (w g t) as [g1 o]; cbn; rewrite IH; destruct (walk_list w g1 ts) as [g2 os]; cbn.
  rewrite map_app; destruct o; reflexivity.
Qed.

Lemma walk_visx {G X A} (vis : G -> X -> G * outcome A) t : forall g,
  walk vis g t = let '(g1, o) := walk (with_node vis) g t in (g1, option_map (tree_map fst) o).
Proof.
  induction t as [x ts IH] using tree_ind'; intros g; cbn.
  unfold with_node at 1.
  destruct (vis g x) as [g1 [|a [|]]]; cbn; try reflexivity.
  rewrite (walk_list_map (walk (with_node vis)) (walk vis) (tree_map fst)) by (exact IH).
  destruct (walk_list (walk (with_node vis)) g1 ts); reflexivity.
Qed.

Lemma walk_all_visx {G X A} (vis : G -> X -> G * outcome A) ts g :
  walk_all vis g ts = let '(g1, os) := walk_all (with_node vis) g ts in (g1, map (tree_map fst) os).
Proof.
  apply walk_list_map; apply Forall_forall; intros t _ g'; apply walk_visx.
Qed.

Lemma walk_list_ext {G X B} (w w' : G -> tree X -> G * option (tree B)) ts :
  Forall (fun t => forall g, w g t = w' g t) ts -> forall g, walk_list w g ts = walk_list w' g ts.
Proof.
  induction 1 as [|t ts Ht _ IH]; intros g; [reflexivity|].
  rewrite !walk_list_cons, Ht; destruct (w' g t) as [g1 o]; rewrite IH; reflexivity.
Qed.

Lemma walk_ext_in {G X A} (v v' : G -> X -> G * outcome A) t :
  (forall g x, In x (preorder t) -> v g x = v' g x) -> forall g, walk v g t = walk v' g t.
Proof.
  induction t as [x ts IH] using tree_ind'; intros H g; cbn.
  rewrite H by (left; reflexivity).
  destruct (v' g x) as [g1 [|a [|]]]; try reflexivity.
  rewrite (walk_list_ext _ (walk v')); [reflexivity|].
  rewrite Forall_forall in IH |- *; intros t Ht; apply IH; [exact Ht|].
  intros g2 y Hy; apply H; right; apply in_flat_map; exists t; auto.
Qed.

Lemma walk_ext {G X A} (v v' : G -> X -> G * outcome A) t :
  (forall g x, v g x = v' g x) -> forall g, walk v g t = walk v' g t.
Proof. intros H; apply walk_ext_in; intros; apply H. Qed.

Lemma walk_all_ext_in {G X A} (v v' : G -> X -> G * outcome A) ts :
  (forall g x, In x (flat_map preorder ts) -> v g x = v' g x) -> forall g, walk_all v g ts = walk_all v' g ts.
Proof.
  intros H; apply walk_list_ext; apply Forall_forall; intros t Ht; apply walk_ext_in.
  intros g x Hx; apply H; apply in_flat_map; exists t; auto.
Qed.

(** ** A pipeline object performs a walk *)
Record simulates {A G X : Type} (P : pipe A) (vis : G -> X -> G * outcome A) (pok : list N -> X -> Prop)
    (R : p_state P -> G -> list (tree X) -> list (tree X) -> Prop) : Prop := mkSim {
  sim_next : forall s g d r, R s g d r ->
    forall o d' r' g', vstep vis g (d ++ r) = (o, d', r', g') ->
    exists s', (fun f => p_next P f s) ⇓ Ok (option_map fst o, s') /\ R s' g' d' r' /\
      (forall a x, o = Some (a, x) -> pok (p_path P s') x);
  sim_prune : forall s g d r, R s g d r -> R (p_prune P s) g [] r;
  sim_path : forall s, p_path P (p_prune P s) = p_path P s
}.

Lemma simulates_pok {A G X} (P : pipe A) (vis : G -> X -> G * outcome A) (pok pok' : list N -> X -> Prop) R :
  (forall p x, pok p x -> pok' p x) -> simulates P vis pok R -> simulates P vis pok' R.
Proof.
  intros H [H1 H2 H3]; split; auto.
  intros s g d r HR o d' r' g' E; destruct (H1 s g d r HR _ _ _ _ E) as (s' & ? & ? & Hp).
  exists s'; repeat split; auto; intros; eapply H, Hp; eassumption.
Qed.

Lemma vstep_ext {G X A} (v v' : G -> X -> G * outcome A) todo :
  (forall g x, v g x = v' g x) -> forall g, vstep v g todo = vstep v' g todo.
Proof.
  intros H; induction todo as [|[x ts] todo IH]; intros g; cbn; [reflexivity|].
  rewrite H; destruct (v' g x) as [g1 [|a dn]]; [apply IH|reflexivity].
Qed.

Lemma simulates_ext {A G X} (P : pipe A) (v v' : G -> X -> G * outcome A) (pok : list N -> X -> Prop) R :
  (forall g x, v g x = v' g x) -> simulates P v pok R -> simulates P v' pok R.
Proof.
  intros H [H1 H2 H3]; split; auto.
  intros s g d r HR o d' r' g' E; rewrite <- (vstep_ext v v') in E by exact H; eauto.
Qed.

(** ** A stage on top of a pipeline *)
Section Then.
  Context {G H X A B : Type}.
  Variable vis : G -> X -> G * outcome A.
  Variable stage : H -> X -> A -> H * outcome B.

  Definition vthen (gh : G * H) (x : X) : (G * H) * outcome B :=
    match vis (fst gh) x with
    | (g1, Drop) => ((g1, snd gh), Drop)
    | (g1, Keep a down) =>
        match stage (snd gh) x a with
        | (h1, Drop) => ((g1, h1), Drop)
        | (h1, Keep b down') => ((g1, h1), Keep b (down && down'))
        end
    end.

  Lemma vstep_then todo : forall g h,
    vstep vthen (g, h) todo =
    match vstep vis g todo with
    | (None, _, _, g1) => (None, [], [], (g1, h))
    | (Some (a, x), d, r, g1) =>
        match stage h x a with
        | (h1, Drop) => vstep vthen (g1, h1) r
        | (h1, Keep b down) => (Some (b, x), if down then d else [], r, (g1, h1))
        end
    end.
  Proof.
    induction todo as [|[x ts] todo IH]; intros g h; cbn; [reflexivity|].
    unfold vthen at 1; cbn [fst snd].
    destruct (vis g x) as [g1 [|a down]]; [apply IH|].
    destruct (stage h x a) as [h1 [|b down']]; [reflexivity|].
    destruct down, down'; reflexivity.
  Qed.
End Then.

Section MapStage.
  Context {A B G H X : Type} (inner : pipe A) (f : H -> A -> H * B) (h0 : H).
  Context (vis : G -> X -> G * outcome A) (pok : list N -> X -> Prop) (R : p_state inner -> G -> list (tree X) -> list (tree X) -> Prop).
  Hypothesis Hsim : simulates inner vis pok R.

  Definition map_stage (h : H) (_ : X) (a : A) : H * outcome B := let '(h1, b) := f h a in (h1, Keep b true).
  Definition map_R (s : p_state (map_tree inner f h0)) (gh : G * H) (d r : list (tree X)) : Prop :=
    R (fst s) (fst gh) d r /\ snd s = snd gh.

  Lemma map_sim : simulates (map_tree inner f h0) (vthen vis map_stage) pok map_R.
  Proof.
    destruct Hsim as [H1 H2 H3]; split.
    - intros [s h'] [g h] d r [HR Eh] o d' r' g' E; cbn in HR, Eh; subst h'.
      rewrite vstep_then in E.
      destruct (vstep vis g (d ++ r)) as [[[o1 d1] r1] g1] eqn:E1.
      destruct (H1 s g d r HR _ _ _ _ E1) as (s1 & Hc & HR1 & Hp).
      destruct o1 as [[a x]|].
      + unfold map_stage in E; destruct (f h a) as [h1 b] eqn:Ef; injection E as <- <- <- <-.
        exists (s1, h1); split; [|split].
        * cbn; unfold map_next; eapply conv_bind; [exact Hc|]; cbn; rewrite Ef; now_conv.
        * split; [exact HR1|reflexivity].
        * intros b' x' E; injection E as <- <-; apply (Hp a x eq_refl).
      + injection E as <- <- <- <-; exists (s1, h); split; [|split].
        * cbn; unfold map_next; eapply conv_bind; [exact Hc|]; now_conv.
        * destruct (vstep_size vis g (d ++ r) _ _ _ _ E1) as [-> ->]; split; [exact HR1|reflexivity].
        * intros; discriminate.
    - intros [s h'] [g h] d r [HR Eh]; split; [apply (H2 _ _ _ _ HR)|exact Eh].
    - intros [s h]; apply H3.
  Qed.
End MapStage.

Section DepthStage.
  Context {A G X : Type} (inner : pipe A) (depth_of : list N -> Res N) (lim : N) (depth : X -> N).
  Context (vis : G -> X -> G * outcome A) (pok : list N -> X -> Prop) (R : p_state inner -> G -> list (tree X) -> list (tree X) -> Prop).
  Hypothesis Hsim : simulates inner vis pok R.
  Hypothesis Hdepth : forall p x, pok p x -> depth_of p = Ok (depth x).

  Definition vdepth (g : G) (x : X) : G * outcome A :=
    match vis g x with
    | (g1, Drop) => (g1, Drop)
    | (g1, Keep a down) => (g1, Keep a (down && negb (depth x =? lim)%N))
    end.

  Lemma vstep_depth todo : forall g,
    vstep vdepth g todo =
    match vstep vis g todo with
    | (None, d, r, g1) => (None, d, r, g1)
    | (Some (a, x), d, r, g1) => (Some (a, x), if (depth x =? lim)%N then [] else d, r, g1)
    end.
  Proof.
    induction todo as [|[x ts] todo IH]; intros g; cbn; [reflexivity|].
    unfold vdepth at 1.
    destruct (vis g x) as [g1 [|a down]]; [apply IH|].
    destruct down, (depth x =? lim)%N; reflexivity.
  Qed.

  Lemma depth_sim : simulates (prune_depth inner depth_of lim) vdepth pok R.
  Proof.
    destruct Hsim as [H1 H2 H3]; split; [|exact H2|exact H3].
    intros s g d r HR o d' r' g' E; rewrite vstep_depth in E.
    destruct (vstep vis g (d ++ r)) as [[[o1 d1] r1] g1] eqn:E1.
    destruct (H1 s g d r HR _ _ _ _ E1) as (s1 & Hc & HR1 & Hp).
    destruct o1 as [[a x]|]; injection E as <- <- <- <-.
    - specialize (Hp a x eq_refl).
      exists (if (depth x =? lim)%N then p_prune inner s1 else s1); split; [|split].
      + cbn; unfold prune_depth_next; eapply conv_bind; [exact Hc|]; cbn.
        rewrite (Hdepth _ _ Hp); now_conv.
      + destruct (depth x =? lim)%N; [apply (H2 _ _ _ _ HR1)|exact HR1].
      + intros a' x' E; injection E as <- <-; cbn; destruct (depth x =? lim)%N; [rewrite H3|]; exact Hp.
    - exists s1; split; [|split].
      + cbn; unfold prune_depth_next; eapply conv_bind; [exact Hc|]; now_conv.
      + exact HR1.
      + intros; discriminate.
  Qed.
End DepthStage.

Section PruneStages.
  Context {A G H X : Type} (inner : pipe A) (f : H -> list N -> A -> H * bool).
  Context (vis : G -> X -> G * outcome A) (pok : list N -> X -> Prop) (R : p_state inner -> G -> list (tree X) -> list (tree X) -> Prop).
  Hypothesis Hsim : simulates inner vis pok R.
  (** What the closure is given: [f] on the reported path, [fx] on the node. *)
  Context (fx : H -> X -> A -> H * bool).
  Hypothesis Hf : forall p x, pok p x -> forall h a, f h p a = fx h x a.

  Definition prune_stage (h : H) (x : X) (a : A) : H * outcome A :=
    let '(h1, b) := fx h x a in (h1, if b then Drop else Keep a true).

  (** *** The binary version *)
  Variable h0 : H.
  Definition bprune_R (s : p_state (bprune inner f h0)) (gh : G * H) (d r : list (tree X)) : Prop :=
    R (fst s) (fst gh) d r /\ snd s = snd gh.

  Lemma bprune_sim : simulates (bprune inner f h0) (vthen vis prune_stage) pok bprune_R.
  Proof.
    destruct Hsim as [H1 H2 H3]; split.
    - intros [s h'] [g h] d r [HR Eh] o d' r' g' E; cbn in HR, Eh; subst h'; cbn [p_next bprune p_path].
      remember (length (d ++ r)) as n eqn:En.
      revert s g h d r HR En E; induction n as [n IH] using lt_wf_ind; intros s g h d r HR En E.
      rewrite vstep_then in E.
      destruct (vstep vis g (d ++ r)) as [[[o1 d1] r1] g1] eqn:E1.
      destruct (H1 s g d r HR _ _ _ _ E1) as (s1 & Hc & HR1 & Hp).
      destruct o1 as [[a x]|].
      + specialize (Hp a x eq_refl); specialize (Hf _ _ Hp h a).
        unfold prune_stage in E; destruct (fx h x a) as [h1 [|]] eqn:Ef.
        * pose proof (vstep_len vis g (d ++ r) _ _ _ _ E1) as Hlen; cbn in Hlen.
          destruct (IH (length r1) ltac:(lia) (p_prune inner s1) g1 h1 [] r1) as (s' & Hs' & HR' & Hp'); auto.
          { apply (H2 _ _ _ _ HR1). }
          exists s'; split; [|split; [exact HR'|exact Hp']].
          eapply loop_step; [|exact Hs'].
          unfold bprune_body; eapply conv_bind; [exact Hc|]; cbn; rewrite Hf; now_conv.
        * injection E as <- <- <- <-; exists (s1, h1); split; [|split].
          -- apply loop_done; unfold bprune_body; eapply conv_bind; [exact Hc|]; cbn; rewrite Hf; now_conv.
          -- split; [exact HR1|reflexivity].
          -- intros a' x' E; injection E as <- <-; exact Hp.
      + injection E as <- <- <- <-; exists (s1, h); split; [|split].
        * apply loop_done; unfold bprune_body; eapply conv_bind; [exact Hc|]; now_conv.
        * destruct (vstep_size vis g (d ++ r) _ _ _ _ E1) as [-> ->]; split; [exact HR1|reflexivity].
        * intros; discriminate.
    - intros [s h'] [g h] d r [HR Eh]; split; [apply (H2 _ _ _ _ HR)|exact Eh].
    - intros [s h]; apply H3.
  Qed.

  (** *** The n-ary version, with its two vectors *)
  Definition vec_ok (k : nat) (v : list N) : Prop := Forall (fun x => (x + N.of_nat k <= usize_max)%N) v.

  Lemma vec_ok_le k k' v : k' <= k -> vec_ok k v -> vec_ok k' v.
  Proof. intros Hk; apply Forall_impl; intros x Hx; lia. Qed.
  Lemma vec_ok_firstn k i v : vec_ok k v -> vec_ok k (firstn i v).
  Proof. intros Hv; rewrite <- (firstn_skipn i v) in Hv; apply Forall_app in Hv; tauto. Qed.
  Lemma vec_ok_repeat k v i : (N.of_nat k <= usize_max)%N -> vec_ok k v -> vec_ok k (v ++ repeat 0%N i).
  Proof.
    intros Hk Hv; apply Forall_app; split; [exact Hv|]; apply Forall_forall; intros x Hx.
    apply repeat_spec in Hx; subst; lia.
  Qed.

  Lemma succ_last_ok k v : vec_ok (S k) v -> exists v', succ_last v = Ok v' /\ length v' = length v /\ vec_ok k v'.
  Proof.
    intros Hv; induction Hv as [|x v Hx Hv IH]; [exists []; repeat constructor|].
    destruct v as [|y v].
    - exists [(x + 1)%N]; cbn; rewrite checked_succ_lt by lia; repeat split; constructor; [lia|constructor].
    - destruct IH as (v' & E & El & Hv').
      exists (x :: v'); repeat split.
      + change (succ_last (x :: y :: v)) with (w <- succ_last (y :: v) ;; Ok (x :: w)); rewrite E; reflexivity.
      + cbn; rewrite El; reflexivity.
      + constructor; [lia|exact Hv'].
  Qed.

  Lemma succ_at_ok k v : forall i, i < length v -> vec_ok (S k) v ->
    exists v', succ_at i v = Ok v' /\ length v' = length v /\ vec_ok k v'.
  Proof.
    induction v as [|x v IH]; intros i Hi Hv; [cbn in Hi; lia|].
    inversion Hv as [|? ? Hx Hv']; subst.
    destruct i as [|i].
    - exists ((x + 1)%N :: v); cbn; rewrite checked_succ_lt by lia; repeat split.
      constructor; [lia|]; eapply vec_ok_le; [|exact Hv']; lia.
    - destruct (IH i) as (v' & E & El & Hv''); [cbn in Hi; lia|exact Hv'|].
      exists (x :: v'); cbn; rewrite E, El; repeat split; constructor; [lia|exact Hv''].
  Qed.

  Lemma prune_resize_ok k len pruned path : (N.of_nat k <= usize_max)%N -> length pruned = length path ->
    vec_ok (S k) pruned -> vec_ok (S k) path ->
    exists pruned' path', prune_resize len pruned path = Ok (pruned', path') /\
      length pruned' = len /\ length path' = len /\ vec_ok (S k) pruned' /\ vec_ok k path' \/
      (N.of_nat (S k) > usize_max)%N.
  Proof.
    intros Hk El Hp Hq; unfold prune_resize.
    destruct (N.ltb_spec usize_max (N.of_nat (S k))); [exists [], []; right; lia|].
    destruct (Nat.ltb_spec (length pruned) len).
    - eexists _, _; left; repeat split.
      + rewrite app_length, repeat_length; lia.
      + rewrite app_length, repeat_length; lia.
      + apply vec_ok_repeat; [lia|exact Hp].
      + apply vec_ok_repeat; [lia|]; eapply vec_ok_le; [|exact Hq]; lia.
    - destruct (Nat.ltb_spec len (length pruned)).
      + destruct (succ_last_ok k (firstn len path)) as (v' & E & El' & Hv'); [apply vec_ok_firstn; exact Hq|].
        rewrite E; cbn; eexists _, _; left; repeat split.
        * rewrite firstn_length; lia.
        * rewrite El', firstn_length; lia.
        * apply vec_ok_firstn; exact Hp.
        * exact Hv'.
      + eexists _, _; left; repeat split; [lia|lia|exact Hp|]; eapply vec_ok_le; [|exact Hq]; lia.
  Qed.

  Variable start : list N.
  Definition prune_R (s : p_state (prune_from inner f start h0)) (gh : G * H) (d r : list (tree X)) : Prop :=
    R (pr_inner s) (fst gh) d r /\ pr_clos s = snd gh /\ length (pr_pruned s) = length (pr_path s) /\
    (N.of_nat (fsize (d ++ r)) <= usize_max)%N /\ vec_ok (fsize (d ++ r)) (pr_pruned s) /\ vec_ok (fsize (d ++ r)) (pr_path s).

  Context (pok' : list N -> X -> Prop).
  Hypothesis Hpok' : forall p q x, pok p x -> length q = length p -> pok' q x.

  Lemma prune_sim : simulates (prune_from inner f start h0) (vthen vis prune_stage) pok' prune_R.
  Proof.
    destruct Hsim as [H1 H2 H3]; split.
    - intros [s h' pruned path] [g h] d r (HR & Eh & El & Hs & Hv1 & Hv2) o d' r' g' E; cbn in HR, Eh, El, Hs, Hv1, Hv2; subst h'.
      cbn [p_next prune_from p_path].
      remember (length (d ++ r)) as n eqn:En.
      revert s g h d r pruned path HR El Hs Hv1 Hv2 En E.
      induction n as [n IH] using lt_wf_ind; intros s g h d r pruned path HR El Hs Hv1 Hv2 En E.
      rewrite vstep_then in E.
      destruct (vstep vis g (d ++ r)) as [[[o1 d1] r1] g1] eqn:E1.
      destruct (H1 s g d r HR _ _ _ _ E1) as (s1 & Hc & HR1 & Hp).
      pose proof (vstep_size vis g (d ++ r) _ _ _ _ E1) as Hsz.
      destruct o1 as [[a x]|].
      + specialize (Hp a x eq_refl); specialize (Hf _ _ Hp h a).
        destruct (fsize (d ++ r)) as [|k] eqn:Ek; [lia|].
        destruct (prune_resize_ok k (length (p_path inner s1)) pruned path) as (pruned1 & path1 & [(Er & Hl1 & Hl2 & Hv1' & Hv2')|Hbad]);
          [lia|exact El|exact Hv1|exact Hv2| |lia].
        unfold prune_stage in E; destruct (fx h x a) as [h1 [|]] eqn:Ef.
        * pose proof (vstep_len vis g (d ++ r) _ _ _ _ E1) as Hlen; cbn in Hlen.
          assert (Hbump : exists pruned2, (if 0 <? length path1 then succ_at (length path1 - 1) pruned1 else Ok pruned1) = Ok pruned2 /\
                    length pruned2 = length path1 /\ vec_ok k pruned2).
          { destruct (Nat.ltb_spec 0 (length path1)).
            - destruct (succ_at_ok k pruned1 (length path1 - 1)) as (v' & Ev & Elv & Hv'); [lia|exact Hv1'|].
              exists v'; repeat split; [exact Ev|lia|exact Hv'].
            - exists pruned1; repeat split; [lia|]; eapply vec_ok_le; [|exact Hv1']; lia. }
          destruct Hbump as (pruned2 & Eb & Elb & Hvb).
          assert (Hr1 : fsize r1 <= k) by (rewrite fsize_app in Hsz; lia).
          destruct (IH (length r1) ltac:(lia) (p_prune inner s1) g1 h1 [] r1 pruned2 path1) as (s' & Hs' & HR' & Hp'); auto.
          { apply (H2 _ _ _ _ HR1). }
          { cbn [app]; lia. }
          { cbn [app]; eapply vec_ok_le; [exact Hr1|exact Hvb]. }
          { cbn [app]; eapply vec_ok_le; [exact Hr1|exact Hv2']. }
          exists s'; split; [|split; [exact HR'|exact Hp']].
          eapply loop_step; [|exact Hs'].
          unfold prune_body; cbn [pr_inner pr_clos pr_pruned pr_path]; eapply conv_bind; [exact Hc|]; cbn [option_map fst].
          rewrite Er; cbn [bindR]; rewrite Hf, Eb; now_conv.
        * injection E as <- <- <- <-; exists (mkPrune s1 h1 pruned1 path1); split; [|split].
          -- apply loop_done; unfold prune_body; cbn [pr_inner pr_clos pr_pruned pr_path]; eapply conv_bind; [exact Hc|]; cbn [option_map fst].
             rewrite Er; cbn [bindR]; rewrite Hf; now_conv.
          -- repeat split; cbn [pr_inner pr_clos pr_pruned pr_path fst snd]; [exact HR1|lia|lia| |]; (eapply vec_ok_le; [|eassumption]); lia.
          -- intros a' x' E; injection E as <- <-; eapply Hpok'; [exact Hp|exact Hl2].
      + injection E as <- <- <- <-; destruct Hsz as [-> ->]; exists (mkPrune s1 h [] []); split; [|split].
        * apply loop_done; unfold prune_body; cbn [pr_inner pr_clos pr_pruned pr_path]; eapply conv_bind; [exact Hc|]; now_conv.
        * repeat split; cbn; [exact HR1|unfold usize_max; lia| |]; constructor.
        * intros; discriminate.
    - intros [s h' pruned path] [g h] d r (HR & Eh & El & Hs & Hv1 & Hv2); cbn in *.
      assert (fsize r <= fsize (d ++ r)) by (rewrite fsize_app; lia).
      split; [apply (H2 _ _ _ _ HR)|]; split; [exact Eh|]; split; [exact El|]; split; [cbn [app]; lia|].
      split; cbn [app]; (eapply vec_ok_le; [|eassumption]); assumption.
    - reflexivity.
  Qed.
End PruneStages.
