(** * Lemmas about writing through references (for PropMut.v). *)
From Coq Require Import Permutation.
From Verif Require Import Prelim PrelimFacts Spec SpecFacts SpecObs ModelNode SpecPipe NodeFacts ProofsPath ModelMut.

Lemma yields_to_end_of {S A} (next : nat -> S -> Res (option A * S)) s l : yields next s l -> yields_to_end next s l.
Proof. intros H k _; exact (H k). Qed.

Lemma calls_one {S A} (next : nat -> S -> Res (option A * S)) s o s1 : calls next 1 s ⇓ Ok ([o], s1) -> (fun f => next f s) ⇓ Ok (o, s1).
Proof.
  intros [F HF]; exists F; intros f Hf; specialize (HF f Hf); cbn in HF.
  destruct (next f s) as [[o1 s2]| | |]; cbn in HF; try discriminate; injection HF as -> ->; reflexivity.
Qed.

Lemma yte_nil {S A} (next : nat -> S -> Res (option A * S)) s : yields_to_end next s [] ->
  exists s1, (fun f => next f s) ⇓ Ok (None, s1).
Proof. intros H; destruct (H 1 (le_n 1)) as (s1 & H1); exists s1; apply calls_one; exact H1. Qed.

Lemma yte_cons {S A} (next : nat -> S -> Res (option A * S)) s x l : yields_to_end next s (x :: l) ->
  exists s1, (fun f => next f s) ⇓ Ok (Some x, s1) /\ yields_to_end next s1 l.
Proof.
  intros H; destruct (H 1 ltac:(cbn; lia)) as (s1 & H1); cbn in H1; apply calls_one in H1; exists s1; split; [exact H1|].
  intros k Hk; destruct (H (Datatypes.S k) ltac:(cbn; lia)) as [s2 H2].
  destruct (calls_S_inv _ _ _ _ _ H2) as (o & s1' & os' & Hn' & Hc & E); [eauto|].
  pose proof (conv_fun _ _ _ H1 Hn') as E'; injection E' as <- <-; exists s2.
  cbn [seq map] in E; apply (f_equal (@tl _)) in E; cbn in E; subst os'.
  rewrite <- seq_shift, map_map in Hc; exact Hc.
Qed.

(** ** Any memory *)
Section Memory.
  Context {R M A : Type}.
  Variable read : M -> R -> option A.
  Variable write : M -> R -> A -> M.
  (** Two memories of the same layout. *)
  Variable like : M -> M -> Prop.
  Hypothesis like_refl : forall m, like m m.
  Hypothesis like_trans : forall m1 m2 m3, like m1 m2 -> like m2 m3 -> like m1 m3.
  Hypothesis write_like : forall m r a, read m r <> None -> like m (write m r a).
  Hypothesis read_write : forall m r a, read m r <> None -> read (write m r a) r = Some a.
  Hypothesis read_other : forall m r a r', r' <> r -> read (write m r a) r' = read m r'.

  Lemma write_all_ok {G} (f : G -> A -> G * A) rs : forall g m vals, NoDup rs -> map (read m) rs = map Some vals ->
    exists g' m' vals', write_all read write f rs g m = Ok (g', m') /\ map_accum f g vals = (g', vals') /\
      map (read m') rs = map Some vals' /\ (forall r, ~ In r rs -> read m' r = read m r) /\ like m m'.
  Proof.
    induction rs as [|r rs IH]; intros g m vals ND E.
    - destruct vals; [|discriminate]; exists g, m, []; repeat split; auto.
    - destruct vals as [|a vals]; [discriminate|]; injection E as Ea E; inversion ND as [|? ? Hr ND']; subst.
      cbn [write_all map_accum]; rewrite Ea; cbn [assume_init bindR]; destruct (f g a) as [g1 a1].
      assert (Hn : read m r <> None) by (rewrite Ea; discriminate).
      destruct (IH g1 (write m r a1) vals ND') as (g' & m' & vals' & E1 & E2 & E3 & E4 & E5).
      { rewrite <- E; apply map_ext_in; intros r' Hr'; apply read_other; intros ->; contradiction. }
      exists g', m', (a1 :: vals'); split; [exact E1|]; rewrite E2; split; [reflexivity|]; split; [|split].
      + cbn; rewrite E3, (E4 _ Hr), (read_write _ _ _ Hn); reflexivity.
      + intros q Hq; rewrite E4 by (intros H; apply Hq; right; exact H).
        apply read_other; intros ->; apply Hq; left; reflexivity.
      + eapply like_trans; [apply write_like; exact Hn|exact E5].
  Qed.

  Lemma for_each_write_all {G S} (next : nat -> S -> Res (option R * S)) (f : G -> A -> G * A) rs :
    forall s g m x, yields_to_end next s rs -> write_all read write f rs g m = Ok x ->
    for_each_mut next read write f s g m ⇓ Ok x.
  Proof.
    unfold for_each_mut; induction rs as [|r rs IH]; intros s g m x Y E.
    - destruct (yte_nil _ _ Y) as (s1 & Hn); injection E as <-; apply loop_done; cbn [for_each_body].
      eapply conv_bind; [exact Hn|]; apply conv_ret.
    - destruct (yte_cons _ _ _ _ Y) as (s1 & Hn & Y1); cbn [write_all] in E.
      destruct (read m r) as [a|] eqn:Ea; [|discriminate]; cbn [assume_init bindR] in E; destruct (f g a) as [g1 a1] eqn:Ef.
      eapply loop_step; [|exact (IH s1 g1 _ x Y1 E)].
      cbn [for_each_body]; eapply conv_bind; [exact Hn|].
      apply conv_eq; intros _; rewrite Ea; cbn [assume_init bindR]; rewrite Ef; reflexivity.
  Qed.

  Lemma for_each_ok {G S} (next : nat -> S -> Res (option R * S)) (f : G -> A -> G * A) s g m rs vals :
    yields_to_end next s rs -> NoDup rs -> map (read m) rs = map Some vals ->
    exists g' m' vals', for_each_mut next read write f s g m ⇓ Ok (g', m') /\ map_accum f g vals = (g', vals') /\
      map (read m') rs = map Some vals' /\ (forall r, ~ In r rs -> read m' r = read m r) /\ like m m'.
  Proof.
    intros Y ND E; destruct (write_all_ok f rs g m vals ND E) as (g' & m' & vals' & E1 & E2).
    exists g', m', vals'; split; [exact (for_each_write_all next f rs s g m _ Y E1)|exact E2].
  Qed.
End Memory.

Lemma map_Some_inj {A} (l l' : list A) : map Some l = map Some l' -> l = l'.
Proof.
  revert l'; induction l as [|x l IH]; intros [|y l']; cbn; try discriminate; [reflexivity|].
  intros E; injection E as -> E; rewrite (IH _ E); reflexivity.
Qed.

(** ** Reading and writing trees *)
Lemma nth_update_nth {A} (f : A -> A) l : forall i j, nth_error (update_nth i f l) j =
  if j =? i then option_map f (nth_error l j) else nth_error l j.
Proof.
  induction l as [|x l IH]; intros [|i] [|j]; cbn; try reflexivity.
  - destruct (j =? i); reflexivity.
  - apply IH.
Qed.

Lemma tree_read_write {A} p : forall (t : tree A) a, tree_read t p <> None -> tree_read (tree_write t p a) p = Some a.
Proof.
  unfold tree_read; induction p as [|i p IH]; intros [v ts] a; cbn [tree_write subtree_at subs option_map root]; [reflexivity|].
  rewrite nth_update_nth, Nat.eqb_refl; destruct (nth_error ts i) as [c|]; cbn [option_map]; [apply IH|congruence].
Qed.

Lemma tree_read_other {A} p : forall (t : tree A) a q, q <> p -> tree_read (tree_write t p a) q = tree_read t q.
Proof.
  unfold tree_read; induction p as [|i p IH]; intros [v ts] a [|j q] H; cbn [tree_write subtree_at subs option_map root];
    try congruence.
  rewrite nth_update_nth; destruct (Nat.eqb_spec j i) as [->|Hj]; [|reflexivity].
  destruct (nth_error ts i) as [c|]; cbn [option_map]; [apply IH; congruence|reflexivity].
Qed.

Lemma map_update_nth {A B} (f : A -> A) (h : A -> B) l : forall i, (forall x, h (f x) = h x) -> map h (update_nth i f l) = map h l.
Proof. induction l as [|x l IH]; intros [|i] H; cbn; rewrite ?H, ?IH; auto. Qed.

Lemma tree_write_shape {A} p : forall (t : tree A) a, same_shape t (tree_write t p a).
Proof.
  unfold same_shape; induction p as [|i p IH]; intros [v ts] a; cbn; [reflexivity|].
  f_equal; symmetry; apply map_update_nth; intros x; symmetry; apply IH.
Qed.

Lemma btree_read_write {A} p : forall (t : btree A) a, btree_read t p <> None -> btree_read (btree_write t p a) p = Some a.
Proof.
  unfold btree_read; induction p as [|i p IH]; intros [v l r] a; cbn [btree_write bsubtree_at option_map broot]; [reflexivity|].
  destruct i as [|[|i]]; cbn [bsubtree_at bchild bleft bright]; [| |cbn; congruence].
  - destruct l as [c|]; cbn [option_map]; [apply IH|congruence].
  - destruct r as [c|]; cbn [option_map]; [apply IH|congruence].
Qed.

Lemma btree_read_other {A} p : forall (t : btree A) a q, q <> p -> btree_read (btree_write t p a) q = btree_read t q.
Proof.
  unfold btree_read; induction p as [|i p IH]; intros [v l r] a [|j q] H; cbn [btree_write bsubtree_at option_map broot].
  - congruence.
  - destruct j as [|[|j]]; reflexivity.
  - destruct i as [|[|i]]; reflexivity.
  - destruct i as [|[|i]]; cbn [bsubtree_at bchild bleft bright]; [| |reflexivity].
    + destruct j as [|[|j]]; [|reflexivity|reflexivity].
      destruct l as [c|]; cbn [option_map bchild bleft]; [apply IH; congruence|reflexivity].
    + destruct j as [|[|j]]; [reflexivity| |reflexivity].
      destruct r as [c|]; cbn [option_map bchild bright]; [apply IH; congruence|reflexivity].
Qed.

Lemma btree_write_shape {A} p : forall (t : btree A) a, bsame_shape t (btree_write t p a).
Proof.
  unfold bsame_shape; induction p as [|i p IH]; intros [v l r] a; cbn; [reflexivity|].
  destruct i as [|[|i]]; cbn; [| |reflexivity].
  - destruct l as [c|]; cbn; [rewrite <- IH|]; reflexivity.
  - destruct r as [c|]; cbn; [rewrite <- IH|]; reflexivity.
Qed.

(** ** The places of a tree: all different, and each holds the value of its node *)
Lemma tree_refs_shape {A B} (t : tree A) (u : tree B) : same_shape t u -> tree_refs t = tree_refs u.
Proof.
  assert (E : forall C (x : tree C), tree_refs x = tree_refs (tree_map (fun _ => tt) x)).
  { intros C x; unfold tree_refs, positions; change (@nil unit) with (map (fun _ : C => tt) []).
    rewrite annotate_map, tree_map_map; reflexivity. }
  intros H; rewrite (E A), (E B), H; reflexivity.
Qed.

Lemma btree_refs_shape {A B} (t : btree A) (u : btree B) : bsame_shape t u -> btree_refs t = btree_refs u.
Proof.
  assert (E : forall C (x : btree C), btree_refs x = btree_refs (btree_map (fun _ => tt) x)).
  { intros C x; unfold btree_refs, bpositions; change (@nil unit) with (map (fun _ : C => tt) []).
    rewrite bannotate_map, btree_map_map; reflexivity. }
  intros H; rewrite (E A), (E B), H; reflexivity.
Qed.

Lemma along_last {A T} (rt : T -> A) at_ path mid x : along rt at_ path (mid ++ [x]) -> option_map rt (at_ path) = Some x.
Proof.
  intros [HL H]; rewrite app_length in HL; cbn in HL.
  destruct (H (length path)) as (t & Ht & Hv); [lia|]; rewrite firstn_all in Ht; rewrite Ht; cbn.
  replace (length path) with (length mid) in Hv by lia; rewrite nth_error_app2, Nat.sub_diag in Hv by lia; symmetry; exact Hv.
Qed.

Lemma read_place {A} (t : tree A) q : In q (preorder (positions t)) -> tree_read t (pos_path q) = Some (pos_here q).
Proof.
  intros H; destruct (annotate_along t [] [] q H) as (path & mid & -> & _ & Ha); exact (along_last _ _ _ _ _ Ha).
Qed.

Lemma bread_place {A} (t : btree A) q : In q (preorder (flat (bpositions t))) -> btree_read t (pos_path q) = Some (pos_here q).
Proof.
  intros H; destruct (bannotate_along t [] [] q H) as (path & mid & -> & _ & Ha); exact (along_last _ _ _ _ _ Ha).
Qed.

Lemma annotate_prefix {A} (t : tree A) p ab q : In q (preorder (annotate p ab t)) -> exists path, pos_path q = p ++ path.
Proof. intros H; destruct (annotate_along t p ab q H) as (path & _ & E & _); exists path; exact E. Qed.
Lemma bannotate_prefix {A} (t : btree A) p ab q : In q (preorder (flat (bannotate p ab t))) -> exists path, pos_path q = p ++ path.
Proof. intros H; destruct (bannotate_along t p ab q H) as (path & _ & E & _); exists path; exact E. Qed.

Lemma NoDup_app {A} (l l' : list A) : NoDup l -> NoDup l' -> (forall x, In x l -> ~ In x l') -> NoDup (l ++ l').
Proof.
  induction l as [|x l IH]; intros H H' D; [exact H'|]; inversion H as [|? ? Hx Hl]; subst; cbn; constructor.
  - rewrite in_app_iff; intros [K|K]; [contradiction|exact (D x (or_introl eq_refl) K)].
  - apply IH; auto; intros y Hy; apply D; right; exact Hy.
Qed.

Lemma annotate_nodup {A} (t : tree A) : forall p ab, NoDup (map pos_path (preorder (annotate p ab t))).
Proof.
  induction t as [v ts IH] using tree_ind'; intros p ab; cbn; constructor.
  - rewrite in_map_iff; intros (q & Eq & Hq); apply in_flat_map in Hq as (u & Hu & Hq).
    apply in_mapi in Hu as (j & c & _ & ->); destruct (annotate_prefix _ _ _ _ Hq) as [path E].
    rewrite E, <- app_assoc in Eq; apply (f_equal (@length _)) in Eq; rewrite !app_length in Eq; cbn in Eq; lia.
  - generalize 0 as i; induction IH as [|c ts Hc _ IHts]; intros i; cbn [mapi flat_map]; [constructor|].
    rewrite map_app; apply NoDup_app; [apply Hc|apply IHts|].
    intros x Hx Hx'; rewrite in_map_iff in Hx, Hx'; destruct Hx as (q & <- & Hq), Hx' as (q' & E' & Hq').
    apply in_flat_map in Hq' as (u & Hu & Hq'); apply in_mapi in Hu as (j & c' & _ & ->).
    destruct (annotate_prefix _ _ _ _ Hq) as [path E], (annotate_prefix _ _ _ _ Hq') as [path' E1].
    rewrite E, E1, <- !app_assoc in E'; apply app_inv_head in E'; injection E' as E' _; lia.
Qed.

Lemma bannotate_nodup {A} (t : btree A) : forall p ab, NoDup (map pos_path (preorder (flat (bannotate p ab t)))).
Proof.
  induction t as [v l r IHl IHr] using btree_ind'; intros p ab; cbn; constructor.
  - rewrite in_map_iff; intros (q & Eq & Hq); apply in_flat_map in Hq as (u & Hu & Hq).
    assert (K : exists path, pos_path q = p ++ path /\ path <> []).
    { apply in_app_or in Hu as [Hu|Hu].
      - destruct l as [c|]; [|destruct Hu]; destruct Hu as [<-|[]]; destruct (bannotate_prefix _ _ _ _ Hq) as [path E].
        exists (0 :: path); rewrite E, <- app_assoc; split; [reflexivity|discriminate].
      - destruct r as [c|]; [|destruct Hu]; destruct Hu as [<-|[]]; destruct (bannotate_prefix _ _ _ _ Hq) as [path E].
        exists (1 :: path); rewrite E, <- app_assoc; split; [reflexivity|discriminate]. }
    destruct K as (path & E & NE); rewrite E in Eq; rewrite <- (app_nil_r p) in Eq at 2; apply app_inv_head in Eq; contradiction.
  - rewrite flat_map_app, map_app; apply NoDup_app.
    + destruct l as [c|]; cbn; [rewrite app_nil_r; apply IHl|constructor].
    + destruct r as [c|]; cbn; [rewrite app_nil_r; apply IHr|constructor].
    + intros x Hx Hx'; rewrite in_map_iff in Hx, Hx'; destruct Hx as (q & <- & Hq), Hx' as (q' & E' & Hq').
      destruct l as [c|]; [|destruct Hq]; destruct r as [c'|]; [|destruct Hq'].
      cbn in Hq, Hq'; rewrite app_nil_r in Hq, Hq'.
      destruct (bannotate_prefix _ _ _ _ Hq) as [path E], (bannotate_prefix _ _ _ _ Hq') as [path' E1].
      rewrite E, E1, <- !app_assoc in E'; apply app_inv_head in E'; discriminate.
Qed.

Lemma tree_for_each {A G S} (next : nat -> S -> Res (option place * S)) (f : G -> A -> G * A) s g (t : tree A) rs vals :
  yields_to_end next s rs -> NoDup rs -> map (tree_read t) rs = map Some vals ->
  exists g' t' vals', for_each_mut next tree_read tree_write f s g t ⇓ Ok (g', t') /\ map_accum f g vals = (g', vals') /\
    map (tree_read t') rs = map Some vals' /\ (forall r, ~ In r rs -> tree_read t' r = tree_read t r) /\ same_shape t t'.
Proof.
  apply (for_each_ok tree_read tree_write (@same_shape A A)); unfold same_shape; try congruence.
  - intros; apply tree_write_shape.
  - intros; apply tree_read_write; assumption.
  - intros; apply tree_read_other; assumption.
Qed.

Lemma btree_for_each {A G S} (next : nat -> S -> Res (option place * S)) (f : G -> A -> G * A) s g (t : btree A) rs vals :
  yields_to_end next s rs -> NoDup rs -> map (btree_read t) rs = map Some vals ->
  exists g' t' vals', for_each_mut next btree_read btree_write f s g t ⇓ Ok (g', t') /\ map_accum f g vals = (g', vals') /\
    map (btree_read t') rs = map Some vals' /\ (forall r, ~ In r rs -> btree_read t' r = btree_read t r) /\ bsame_shape t t'.
Proof.
  apply (for_each_ok btree_read btree_write (@bsame_shape A A)); unfold bsame_shape; try congruence.
  - intros; apply btree_write_shape.
  - intros; apply btree_read_write; assumption.
  - intros; apply btree_read_other; assumption.
Qed.

(** An order of traversal: commutes with mapping, and lists every node. *)
Definition is_order (o : forall X, tree X -> list X) : Prop :=
  (forall X Y (f : X -> Y) t, o Y (tree_map f t) = map f (o X t)) /\ (forall X t, Permutation (o X t) (preorder t)).
Definition is_border (o : forall X, btree X -> list X) : Prop :=
  (forall X Y (f : X -> Y) t, o Y (btree_map f t) = map f (o X t)) /\ (forall X t, Permutation (o X t) (preorder (flat t))).

Lemma order_bfs : is_order (@bfs).
Proof. split; [exact @bfs_map|exact @bfs_perm]. Qed.
Lemma order_preorder : is_order (@preorder).
Proof. split; [exact @preorder_map|intros; apply Permutation_refl]. Qed.
Lemma order_postorder : is_order (@postorder).
Proof. split; [exact @postorder_map|exact @postorder_perm]. Qed.
Lemma border_flat o : is_order o -> is_border (fun X t => o X (flat t)).
Proof. intros [H1 H2]; split; intros; [rewrite flat_btree_map; apply H1|apply H2]. Qed.
Lemma border_inorder : is_border (@inorder).
Proof. split; [exact @inorder_map|exact @inorder_perm]. Qed.

Section Orders.
  Context (o : forall X, tree X -> list X) (Ho : is_order o).

  Lemma refs_nodup {A} (t : tree A) : NoDup (o _ (tree_refs t)).
  Proof.
    unfold tree_refs; destruct Ho as [Hm Hp]; rewrite Hm.
    eapply Permutation_NoDup; [apply Permutation_map, Permutation_sym, Hp|apply annotate_nodup].
  Qed.

  Lemma refs_read {A} (t : tree A) : map (tree_read t) (o _ (tree_refs t)) = map Some (o _ t).
  Proof.
    unfold tree_refs; destruct Ho as [Hm Hp].
    transitivity (map Some (o _ (tree_map pos_here (positions t)))); [|unfold positions; rewrite annotate_here; reflexivity].
    rewrite !Hm, !map_map; apply map_ext_in; intros q Hq; apply read_place.
    eapply Permutation_in; [apply Hp|exact Hq].
  Qed.

  Lemma for_each_tree {A G S} (next : nat -> S -> Res (option place * S)) (f : G -> A -> G * A) s g t :
    yields_to_end next s (o _ (tree_refs t)) ->
    exists g' t', for_each_mut next tree_read tree_write f s g t ⇓ Ok (g', t') /\
      same_shape t t' /\ map_accum f g (o _ t) = (g', o _ t').
  Proof.
    intros Y; destruct (tree_for_each next f s g t _ (o _ t) Y) as (g' & t' & vals' & E1 & E2 & E3 & _ & E5).
    - apply refs_nodup.
    - apply refs_read.
    - exists g', t'; split; [exact E1|]; split; [exact E5|].
      rewrite (tree_refs_shape _ _ E5), refs_read in E3; apply map_Some_inj in E3; rewrite E3; exact E2.
  Qed.
End Orders.

Section BOrders.
  Context (o : forall X, btree X -> list X) (Ho : is_border o).

  Lemma brefs_nodup {A} (t : btree A) : NoDup (o _ (btree_refs t)).
  Proof.
    unfold btree_refs; destruct Ho as [Hm Hp]; rewrite Hm.
    eapply Permutation_NoDup; [apply Permutation_map, Permutation_sym, Hp|apply bannotate_nodup].
  Qed.

  Lemma brefs_read {A} (t : btree A) : map (btree_read t) (o _ (btree_refs t)) = map Some (o _ t).
  Proof.
    unfold btree_refs; destruct Ho as [Hm Hp].
    transitivity (map Some (o _ (btree_map pos_here (bpositions t)))); [|unfold bpositions; rewrite bannotate_here; reflexivity].
    rewrite !Hm, !map_map; apply map_ext_in; intros q Hq; apply bread_place.
    eapply Permutation_in; [apply Hp|exact Hq].
  Qed.

  Lemma for_each_btree {A G S} (next : nat -> S -> Res (option place * S)) (f : G -> A -> G * A) s g t :
    yields_to_end next s (o _ (btree_refs t)) ->
    exists g' t', for_each_mut next btree_read btree_write f s g t ⇓ Ok (g', t') /\
      bsame_shape t t' /\ map_accum f g (o _ t) = (g', o _ t').
  Proof.
    intros Y; destruct (btree_for_each next f s g t _ (o _ t) Y) as (g' & t' & vals' & E1 & E2 & E3 & _ & E5).
    - apply brefs_nodup.
    - apply brefs_read.
    - exists g', t'; split; [exact E1|]; split; [exact E5|].
      rewrite (btree_refs_shape _ _ E5), brefs_read in E3; apply map_Some_inj in E3; rewrite E3; exact E2.
  Qed.
End BOrders.
