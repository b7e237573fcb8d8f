(** * Lemmas about writing through slices of ancestors, about collections, and about pure updates (for PropMut.v). *)
From Coq Require Import Permutation.
From Verif Require Import Prelim PrelimFacts Spec SpecFacts SpecObs SpecMut ModelNode SpecPipe NodeFacts ProofsTree ProofsPath ModelMut ProofsMut.
From Verif Require Import ProofsPipeColl.

(** ** Trees with the same shape and the same listing are equal *)
Lemma shape_preorder {A} (t : tree A) : forall u l l', same_shape t u -> preorder t ++ l = preorder u ++ l' -> t = u /\ l = l'.
Proof.
  induction t as [v ts IH] using tree_ind'; intros [w us] l l' Sh E; cbn in *.
  injection E as <- E; injection Sh as Sh.
  cut (ts = us /\ l = l'); [intros [-> ->]; split; reflexivity|].
  revert us Sh E; induction IH as [|t ts Ht _ IHts]; intros [|u us] Sh E; cbn in *; try discriminate; [split; [reflexivity|exact E]|].
  injection Sh as Sh1 Sh2; rewrite <- !app_assoc in E; destruct (Ht _ _ _ Sh1 E) as [-> E2].
  destruct (IHts _ Sh2 E2) as [-> ->]; split; reflexivity.
Qed.

Lemma bshape_preorder {A} (t : btree A) : forall u l l', bsame_shape t u -> preorder (flat t) ++ l = preorder (flat u) ++ l' -> t = u /\ l = l'.
Proof.
  induction t as [v l r IHl IHr] using btree_ind'; intros [w l1 r1] k k' Sh E.
  unfold bsame_shape in Sh; cbn in Sh; injection Sh as Sl Sr; cbn in E; injection E as <- E.
  rewrite !flat_map_app, <- !app_assoc in E.
  destruct l as [l|], l1 as [l1|]; cbn in Sl; try discriminate; destruct r as [r|], r1 as [r1|]; cbn in Sr; try discriminate; cbn in E, IHl, IHr;
    rewrite ?app_nil_r in E; try injection Sl as Sl; try injection Sr as Sr.
  - destruct (IHl _ _ _ Sl E) as [-> E1]; destruct (IHr _ _ _ Sr E1) as [-> ->]; split; reflexivity.
  - destruct (IHl _ _ _ Sl E) as [-> ->]; split; reflexivity.
  - destruct (IHr _ _ _ Sr E) as [-> ->]; split; reflexivity.
  - subst; split; reflexivity.
Qed.

Lemma map_in_ext {A B} (f g : A -> B) l : map f l = map g l -> forall x, In x l -> f x = g x.
Proof. induction l as [|y l IH]; cbn; [intros _ x []|]; intros E x [<-|H]; injection E as E1 E2; auto. Qed.

Lemma shape_order {A} (o : forall X, tree X -> list X) (Ho : is_order o) (t u : tree A) : same_shape t u -> o _ t = o _ u -> t = u.
Proof.
  intros Sh E; destruct Ho as [Hm Hp] eqn:EHo; clear EHo.
  pose proof (refs_read o (conj Hm Hp) t) as Rt; pose proof (refs_read o (conj Hm Hp) u) as Ru.
  rewrite (tree_refs_shape _ _ Sh), E, <- Ru in Rt.
  refine (proj1 (shape_preorder t u [] [] Sh _)); f_equal.
  apply map_Some_inj; rewrite <- !(refs_read (@preorder) order_preorder), (tree_refs_shape _ _ Sh).
  apply map_ext_in; intros p Hin; apply (map_in_ext _ _ _ Rt); eapply Permutation_in; [apply Permutation_sym, Hp|exact Hin].
Qed.

Lemma bshape_order {A} (o : forall X, btree X -> list X) (Ho : is_border o) (t u : btree A) : bsame_shape t u -> o _ t = o _ u -> t = u.
Proof.
  intros Sh E; destruct Ho as [Hm Hp] eqn:EHo; clear EHo.
  pose proof (brefs_read o (conj Hm Hp) t) as Rt; pose proof (brefs_read o (conj Hm Hp) u) as Ru.
  rewrite (btree_refs_shape _ _ Sh), E, <- Ru in Rt.
  refine (proj1 (bshape_preorder t u [] [] Sh _)); f_equal.
  apply map_Some_inj; rewrite <- !(brefs_read _ (border_flat _ order_preorder)), (btree_refs_shape _ _ Sh).
  apply map_ext_in; intros p Hin; apply (map_in_ext _ _ _ Rt); eapply Permutation_in; [apply Permutation_sym, Hp|exact Hin].
Qed.

Lemma map_shape {A B} (f : A -> B) t : same_shape t (tree_map f t).
Proof. unfold same_shape; rewrite tree_map_map; reflexivity. Qed.
Lemma bmap_shape {A B} (f : A -> B) t : bsame_shape t (btree_map f t).
Proof. unfold bsame_shape; rewrite btree_map_map; reflexivity. Qed.

Lemma for_each_tree_pure (o : forall X, tree X -> list X) (Ho : is_order o) {A S} (next : nat -> S -> Res (option place * S)) (f : A -> A) s t :
  yields_to_end next s (o _ (tree_refs t)) ->
  for_each_mut next tree_read tree_write (fun _ v => (tt, f v)) s tt t ⇓ Ok (tt, tree_map f t).
Proof.
  intros Y; destruct (for_each_tree o Ho next (fun _ v => (tt, f v)) s tt t Y) as (g' & t' & E1 & E2 & E3).
  rewrite map_accum_tt in E3; injection E3 as <- E3.
  replace (tree_map f t) with t'; [exact E1|].
  apply (shape_order o Ho); [unfold same_shape in *; rewrite <- E2; apply map_shape|].
  rewrite <- E3; symmetry; apply Ho.
Qed.

Lemma for_each_btree_pure (o : forall X, btree X -> list X) (Ho : is_border o) {A S} (next : nat -> S -> Res (option place * S)) (f : A -> A) s t :
  yields_to_end next s (o _ (btree_refs t)) ->
  for_each_mut next btree_read btree_write (fun _ v => (tt, f v)) s tt t ⇓ Ok (tt, btree_map f t).
Proof.
  intros Y; destruct (for_each_btree o Ho next (fun _ v => (tt, f v)) s tt t Y) as (g' & t' & E1 & E2 & E3).
  rewrite map_accum_tt in E3; injection E3 as <- E3.
  replace (btree_map f t) with t'; [exact E1|].
  apply (bshape_order o Ho); [unfold bsame_shape in *; rewrite <- E2; apply bmap_shape|].
  rewrite <- E3; symmetry; apply Ho.
Qed.

(** ** Slices of ancestors *)
Fixpoint prefixes (p : list nat) : list (list nat) :=
  match p with [] => [[]] | i :: q => [] :: map (cons i) (prefixes q) end.

Lemma prefixes_snoc p i : prefixes (p ++ [i]) = prefixes p ++ [p ++ [i]].
Proof. induction p as [|j p IH]; cbn; [reflexivity|]; rewrite IH, map_app; reflexivity. Qed.

Lemma line_prefixes {A} (t : tree A) : forall p ab ab0 q, ab ++ [p] = prefixes p ->
  In q (preorder (annotate p ab (tree_map pos_path (annotate p ab0 t)))) -> line q = prefixes (pos_path q).
Proof.
  induction t as [v ts IH] using tree_ind'; intros p ab ab0 q E [<-|Hq]; cbn [preorder annotate tree_map pos_path] in *; [exact E|].
  apply in_flat_map in Hq as (u & Hu & Hq); apply ProofsPath.in_mapi in Hu as (j & c & Hj & ->).
  rewrite nth_error_map, nth_error_mapi in Hj; destruct (nth_error ts j) as [d|] eqn:Ed; [|discriminate]; injection Hj as <-.
  rewrite Forall_forall in IH; refine (IH d (nth_error_In _ _ Ed) _ _ _ _ _ Hq); rewrite E, <- prefixes_snoc; reflexivity.
Qed.

Lemma bline_prefixes {A} (t : btree A) : forall p ab ab0 q, ab ++ [p] = prefixes p ->
  In q (preorder (flat (bannotate p ab (btree_map pos_path (bannotate p ab0 t))))) -> line q = prefixes (pos_path q).
Proof.
  induction t as [v l r IHl IHr] using btree_ind'; intros p ab ab0 q E [<-|Hq]; cbn [preorder flat bannotate btree_map pos_path] in *; [exact E|].
  rewrite flat_map_app in Hq; apply in_app_or in Hq as [Hq|Hq].
  - destruct l as [l|]; cbn in *; [|destruct Hq]; rewrite app_nil_r in Hq.
    refine (IHl _ _ _ _ _ Hq); rewrite E, <- prefixes_snoc; reflexivity.
  - destruct r as [r|]; cbn in *; [|destruct Hq]; rewrite app_nil_r in Hq.
    refine (IHr _ _ _ _ _ Hq); rewrite E, <- prefixes_snoc; reflexivity.
Qed.

Lemma tree_slices (o : forall X, tree X -> list X) (Ho : is_order o) {A} (t : tree A) :
  map (ancestors_at tree_gvc) (o _ (positions (subtrees (tree_refs t)))) = map prefixes (o _ (tree_refs t)).
Proof.
  destruct Ho as [Hm Hp].
  transitivity (map line (o _ (positions (tree_refs t)))).
  { transitivity (map line (o _ (positions (tree_map root (subtrees (tree_refs t)))))); [|rewrite subtrees_root; reflexivity].
    unfold positions; pose proof (annotate_map (@root place) (subtrees (tree_refs t)) [] []) as E; cbn [map] in E; rewrite E, Hm, map_map.
    apply map_ext; intros q; unfold ancestors_at, line; cbn; rewrite map_app; cbn; f_equal; [|rewrite nval_tree; reflexivity].
    apply map_ext; intros; apply nval_tree. }
  transitivity (map prefixes (o _ (tree_refs (tree_refs t)))).
  - unfold tree_refs at 2; rewrite Hm, map_map; apply map_ext_in; intros q Hq.
    eapply (line_prefixes t [] [] []); [reflexivity|]; eapply Permutation_in; [apply Hp|exact Hq].
  - rewrite (tree_refs_shape (tree_refs t) t); [reflexivity|].
    unfold tree_refs, same_shape; rewrite tree_map_map; unfold positions.
    rewrite <- (annotate_here t [] []) at 2; rewrite tree_map_map; reflexivity.
Qed.

Lemma btree_slices (o : forall X, btree X -> list X) (Ho : is_border o) {A} (t : btree A) :
  map (ancestors_at btree_gvcb) (o _ (bpositions (bsubtrees (btree_refs t)))) = map prefixes (o _ (btree_refs t)).
Proof.
  destruct Ho as [Hm Hp].
  transitivity (map line (o _ (bpositions (btree_refs t)))).
  { transitivity (map line (o _ (bpositions (btree_map broot (bsubtrees (btree_refs t)))))); [|rewrite bsubtrees_root; reflexivity].
    unfold bpositions; pose proof (bannotate_map (@broot place) (bsubtrees (btree_refs t)) [] []) as E; cbn [map] in E; rewrite E, Hm, map_map.
    apply map_ext; intros q; unfold ancestors_at, line; cbn; rewrite map_app; cbn; f_equal; [|rewrite nval_btree; reflexivity].
    apply map_ext; intros; apply nval_btree. }
  transitivity (map prefixes (o _ (btree_refs (btree_refs t)))).
  - unfold btree_refs at 2; rewrite Hm, map_map; apply map_ext_in; intros q Hq.
    eapply (bline_prefixes t [] [] []); [reflexivity|]; eapply Permutation_in; [apply Hp|exact Hq].
  - rewrite (btree_refs_shape (btree_refs t) t); [reflexivity|].
    unfold btree_refs, bsame_shape; rewrite btree_map_map; unfold bpositions.
    rewrite <- (bannotate_here t [] []) at 2; rewrite btree_map_map; reflexivity.
Qed.

(** *** How often a place occurs *)
Definition place_dec : forall p q : place, {p = q} + {p <> q} := list_eq_dec Nat.eq_dec.
Definition occurs (p : place) (l : list place) : nat := count_occ place_dec l p.

Lemma occurs_app p l l' : occurs p (l ++ l') = occurs p l + occurs p l'.
Proof. apply count_occ_app. Qed.
Lemma occurs_perm p l l' : Permutation l l' -> occurs p l = occurs p l'.
Proof. intros H; apply (Permutation_count_occ place_dec); exact H. Qed.

Lemma occurs_cons_map i q l : occurs (i :: q) (map (cons i) l) = occurs q l.
Proof.
  unfold occurs; induction l as [|x l IH]; [reflexivity|]; cbn [map]; destruct (place_dec x q) as [->|E].
  - rewrite !count_occ_cons_eq by reflexivity; rewrite IH; reflexivity.
  - rewrite !count_occ_cons_neq by congruence; exact IH.
Qed.
Lemma occurs_other p l : ~ In p l -> occurs p l = 0.
Proof. apply count_occ_not_In. Qed.

Lemma occurs_prefixes q : forall p, occurs p (prefixes q) = if prefixb p q then 1 else 0.
Proof.
  induction q as [|j q IH]; intros [|i p]; cbn [prefixes prefixb].
  - reflexivity.
  - reflexivity.
  - change (occurs [] ([] :: map (cons j) (prefixes q))) with (occurs [] ([[]] ++ map (cons j) (prefixes q))); rewrite occurs_app.
    rewrite (occurs_other _ (map (cons j) (prefixes q))); [reflexivity|].
    rewrite in_map_iff; intros (x & Hx & _); discriminate.
  - change (occurs (i :: p) ([] :: map (cons j) (prefixes q))) with (occurs (i :: p) ([[]] ++ map (cons j) (prefixes q))); rewrite occurs_app.
    change (occurs (i :: p) [[]]) with 0; cbn [Nat.add].
    destruct (Nat.eqb_spec i j) as [->|H]; cbn [andb]; [rewrite occurs_cons_map; apply IH|].
    apply occurs_other; rewrite in_map_iff; intros (x & Hx & _); congruence.
Qed.

Definition below (p : place) (l : list place) : nat := length (filter (prefixb p) l).
Lemma occurs_below p l : occurs p (flat_map prefixes l) = below p l.
Proof.
  unfold below; induction l as [|q l IH]; cbn [flat_map filter]; [reflexivity|].
  rewrite occurs_app, IH, occurs_prefixes; destruct (prefixb p q); reflexivity.
Qed.
Lemma below_app p l l' : below p (l ++ l') = below p l + below p l'.
Proof. unfold below; rewrite filter_app, app_length; reflexivity. Qed.
Lemma below_none p l : (forall q, In q l -> prefixb p q = false) -> below p l = 0.
Proof.
  unfold below; induction l as [|q l IH]; intros H; cbn; [reflexivity|].
  rewrite (H q (or_introl eq_refl)); apply IH; intros x Hx; apply H; right; exact Hx.
Qed.
Lemma below_all p l : (forall q, In q l -> prefixb p q = true) -> below p l = length l.
Proof.
  unfold below; induction l as [|q l IH]; intros H; cbn; [reflexivity|].
  rewrite (H q (or_introl eq_refl)); cbn; f_equal; apply IH; intros x Hx; apply H; right; exact Hx.
Qed.
Lemma prefixb_app b p : prefixb b (b ++ p) = true.
Proof. induction b as [|i b IH]; cbn; [reflexivity|]; rewrite Nat.eqb_refl; exact IH. Qed.
Lemma prefixb_base b p q : prefixb (b ++ p) (b ++ q) = prefixb p q.
Proof. induction b as [|i b IH]; cbn; [reflexivity|]; rewrite Nat.eqb_refl; exact IH. Qed.

Definition paths_from {A} (b : list nat) (t : tree A) : list place := map pos_path (preorder (annotate b [] t)).
Lemma paths_ab {A} (t : tree A) b ab : map pos_path (preorder (annotate b ab t)) = paths_from b t.
Proof.
  unfold paths_from; rewrite <- !preorder_map; f_equal.
  revert b ab; induction t as [v ts IH] using tree_ind'; intros b ab; cbn; f_equal.
  rewrite !map_mapi; apply mapi_ext_Forall; eapply Forall_impl; [|exact IH]; cbn; intros c Hc j.
  rewrite (Hc (b ++ [j]) (ab ++ [v])); symmetry; apply Hc.
Qed.
Lemma paths_in {A} (t : tree A) b q : In q (paths_from b t) -> exists p, q = b ++ p.
Proof.
  unfold paths_from; rewrite in_map_iff; intros (x & <- & Hx); destruct (annotate_prefix _ _ _ _ Hx) as [p E]; exists p; exact E.
Qed.
Lemma paths_node {A} b v (ts : list (tree A)) : paths_from b (TNode v ts) = b :: concat (mapi (fun i c => paths_from (b ++ [i]) c) 0 ts).
Proof.
  unfold paths_from at 1; cbn; f_equal.
  generalize 0; induction ts as [|c ts IH]; intros i; cbn; [reflexivity|].
  rewrite map_app, IH, paths_ab; reflexivity.
Qed.

Lemma below_paths {A} p : forall (t s : tree A) b, subtree_at t p = Some s ->
  below (b ++ p) (paths_from b t) = length (preorder s).
Proof.
  induction p as [|i p IH]; intros [v ts] s b; cbn [subtree_at subs].
  - intros E; injection E as <-; rewrite app_nil_r, below_all.
    + unfold paths_from; rewrite map_length, <- (map_length pos_here), <- preorder_map, annotate_here; reflexivity.
    + intros q Hq; destruct (paths_in _ _ _ Hq) as [p ->]; apply prefixb_app.
  - destruct (nth_error ts i) as [c|] eqn:Ei; [|discriminate]; intros Es.
    destruct (nth_error_split _ _ Ei) as (l1 & l2 & -> & L1).
    rewrite paths_node, mapi_app; cbn [mapi]; rewrite concat_app; cbn [concat]; rewrite Nat.add_0_l, L1.
    change (b :: ?x ++ ?y) with ([b] ++ x ++ y); rewrite !below_app.
    assert (O : forall j (c' : tree A), j <> i -> below (b ++ i :: p) (paths_from (b ++ [j]) c') = 0).
    { intros j c' Hj; apply below_none; intros q Hq; destruct (paths_in _ _ _ Hq) as [p' ->].
      rewrite <- app_assoc, prefixb_base; cbn; destruct (Nat.eqb_spec i j); [congruence|reflexivity]. }
    assert (Z1 : below (b ++ i :: p) [b] = 0).
    { apply below_none; intros q [<-|[]]; rewrite <- (app_nil_r b) at 2; rewrite prefixb_base; reflexivity. }
    assert (Z2 : forall (l : list (tree A)) k, (forall j, k <= j < k + length l -> j <> i) ->
               below (b ++ i :: p) (concat (mapi (fun i0 c0 => paths_from (b ++ [i0]) c0) k l)) = 0).
    { induction l as [|x l IHl]; intros k Hk; cbn [mapi concat]; [reflexivity|].
      rewrite below_app, O by (apply Hk; cbn; lia); apply IHl; intros j Hj; apply Hk; cbn; lia. }
    rewrite Z1, (Z2 l1 0), (Z2 l2 (S i)) by lia.
    replace (b ++ i :: p) with ((b ++ [i]) ++ p) by (rewrite <- app_assoc; reflexivity).
    rewrite (IH c s (b ++ [i]) Es); lia.
Qed.

Lemma update_below_read {A} (f : A -> A) p : forall t,
  tree_read (update_below f t) p = option_map (fun s => Nat.iter (length (preorder s)) f (root s)) (subtree_at t p).
Proof.
  unfold tree_read; induction p as [|i p IH]; intros [v ts]; [reflexivity|].
  cbn [update_below subtree_at subs]; rewrite nth_error_map; destruct (nth_error ts i); [apply IH|reflexivity].
Qed.

Lemma tree_read_ext {A} (t : tree A) : forall u, (forall p, tree_read t p = tree_read u p) -> t = u.
Proof.
  induction t as [v ts IH] using tree_ind'; intros [w us] H.
  pose proof (H []) as H0; injection H0 as <-; f_equal.
  assert (H1 : forall i p, match nth_error ts i with Some c => tree_read c p | None => None end =
                           match nth_error us i with Some c => tree_read c p | None => None end).
  { intros i p; specialize (H (i :: p)); unfold tree_read in H |- *; cbn in H.
    destruct (nth_error ts i), (nth_error us i); exact H. }
  clear H; revert us H1; induction IH as [|t ts Ht _ IHts]; intros [|u us] H1.
  - reflexivity.
  - specialize (H1 0 []); discriminate.
  - specialize (H1 0 []); discriminate.
  - f_equal; [apply Ht; intros p; exact (H1 0 p)|apply IHts; intros i p; exact (H1 (S i) p)].
Qed.

(** *** Binary *)
Definition bpaths_from {A} (b : list nat) (t : btree A) : list place := map pos_path (preorder (flat (bannotate b [] t))).
Lemma bpaths_ab {A} (t : btree A) b ab : map pos_path (preorder (flat (bannotate b ab t))) = bpaths_from b t.
Proof.
  unfold bpaths_from; rewrite <- !preorder_map, <- !flat_btree_map; f_equal; f_equal.
  revert b ab; induction t as [v l r IHl IHr] using btree_ind'; intros b ab; cbn.
  destruct l as [l|], r as [r|]; cbn in *; rewrite ?(IHl _ (ab ++ [v])), ?(IHr _ (ab ++ [v])), ?(IHl _ [v]), ?(IHr _ [v]); reflexivity.
Qed.
Lemma bpaths_in {A} (t : btree A) b q : In q (bpaths_from b t) -> exists p, q = b ++ p.
Proof.
  unfold bpaths_from; rewrite in_map_iff; intros (x & <- & Hx); destruct (bannotate_prefix _ _ _ _ Hx) as [p E]; exists p; exact E.
Qed.
Definition side_paths {A} (b : list nat) (o : option (btree A)) : list place := match o with Some c => bpaths_from b c | None => [] end.
Lemma bpaths_node {A} b v (l r : option (btree A)) :
  bpaths_from b (BNode v l r) = [b] ++ side_paths (b ++ [0]) l ++ side_paths (b ++ [1]) r.
Proof.
  unfold bpaths_from at 1; cbn; f_equal; rewrite flat_map_app, map_app; f_equal.
  - destruct l as [l|]; cbn; [rewrite app_nil_r; apply bpaths_ab|reflexivity].
  - destruct r as [r|]; cbn; [rewrite app_nil_r; apply bpaths_ab|reflexivity].
Qed.
Lemma side_below_other {A} b i p j (o : option (btree A)) : j <> i -> below (b ++ i :: p) (side_paths (b ++ [j]) o) = 0.
Proof.
  intros Hj; apply below_none; intros q Hq; destruct o as [c|]; [|destruct Hq].
  destruct (bpaths_in _ _ _ Hq) as [p' ->].
  rewrite <- app_assoc, prefixb_base; cbn; destruct (Nat.eqb_spec i j); [congruence|reflexivity].
Qed.

Lemma bbelow_paths {A} p : forall (t s : btree A) b, bsubtree_at t p = Some s ->
  below (b ++ p) (bpaths_from b t) = length (preorder (flat s)).
Proof.
  induction p as [|i p IH]; intros [v l r] s b.
  - intros E; injection E as <-; rewrite app_nil_r, below_all.
    + unfold bpaths_from; rewrite map_length, <- (map_length pos_here), <- preorder_map, <- flat_btree_map, bannotate_here; reflexivity.
    + intros q Hq; destruct (bpaths_in _ _ _ Hq) as [p ->]; apply prefixb_app.
  - intros E.
    assert (Z1 : below (b ++ i :: p) [b] = 0).
    { apply below_none; intros q [<-|[]]; rewrite <- (app_nil_r b) at 2; rewrite prefixb_base; reflexivity. }
    assert (K : forall c, bsubtree_at c p = Some s -> below (b ++ i :: p) (bpaths_from (b ++ [i]) c) = length (preorder (flat s))).
    { intros c Hc; rewrite <- (IH c s (b ++ [i]) Hc), <- app_assoc; reflexivity. }
    rewrite bpaths_node, !below_app, Z1; cbn [Nat.add].
    destruct i as [|[|i]]; cbn [bsubtree_at bchild bleft bright] in E; [| |discriminate].
    + destruct l as [c|]; [|discriminate]; rewrite (side_below_other b 0 p 1) by discriminate.
      cbn [side_paths]; rewrite (K _ E); lia.
    + destruct r as [c|]; [|discriminate]; rewrite (side_below_other b 1 p 0) by discriminate.
      cbn [side_paths]; rewrite (K _ E); lia.
Qed.

Lemma bupdate_below_read {A} (f : A -> A) p : forall t,
  btree_read (bupdate_below f t) p = option_map (fun s => Nat.iter (length (preorder (flat s))) f (broot s)) (bsubtree_at t p).
Proof.
  unfold btree_read; induction p as [|i p IH]; intros [v l r]; [reflexivity|].
  destruct i as [|[|i]]; cbn [bupdate_below bsubtree_at bchild bleft bright]; [| |reflexivity].
  - destruct l; [apply IH|reflexivity].
  - destruct r; [apply IH|reflexivity].
Qed.

Lemma btree_read_ext {A} (t : btree A) : forall u, (forall p, btree_read t p = btree_read u p) -> t = u.
Proof.
  induction t as [v l r IHl IHr] using btree_ind'; intros [w l1 r1] H.
  pose proof (H []) as H0; injection H0 as <-; f_equal.
  - assert (H1 : forall p, btree_read (BNode v l r) (0 :: p) = btree_read (BNode v l1 r1) (0 :: p)) by (intros; apply H).
    unfold btree_read in H1; cbn in H1; destruct l as [l|], l1 as [l1|]; [f_equal; apply IHl; exact H1| | |reflexivity];
      specialize (H1 []); discriminate.
  - assert (H1 : forall p, btree_read (BNode v l r) (1 :: p) = btree_read (BNode v l1 r1) (1 :: p)) by (intros; apply H).
    unfold btree_read in H1; cbn in H1; destruct r as [r|], r1 as [r1|]; [f_equal; apply IHr; exact H1| | |reflexivity];
      specialize (H1 []); discriminate.
Qed.

(** ** Pure writes, any number of times per place *)
Section Slices.
  Context {M A : Type}.
  Variable read : M -> place -> option A.
  Variable write : M -> place -> A -> M.
  Hypothesis read_write : forall m r a, read m r <> None -> read (write m r a) r = Some a.
  Hypothesis read_other : forall m r a r', r' <> r -> read (write m r a) r' = read m r'.
  Variable f : A -> A.
  Let pure : unit -> A -> unit * A := fun _ v => (tt, f v).

  Lemma iter_swap n (a : A) : Nat.iter n f (f a) = f (Nat.iter n f a).
  Proof. induction n as [|n IH]; [reflexivity|]; change (f (Nat.iter n f (f a)) = f (f (Nat.iter n f a))); rewrite IH; reflexivity. Qed.

  Lemma write_all_pure rs : forall m, (forall r, In r rs -> read m r <> None) ->
    exists m', write_all read write pure rs tt m = Ok (tt, m') /\
      forall r, read m' r = option_map (Nat.iter (occurs r rs) f) (read m r).
  Proof.
    induction rs as [|r rs IH]; intros m H.
    - exists m; split; [reflexivity|]; intros r; cbn; destruct (read m r); reflexivity.
    - cbn [write_all]; pose proof (H r (or_introl eq_refl)) as Hr; destruct (read m r) as [a|] eqn:Ea; [|congruence].
      cbn [assume_init bindR pure]; assert (Hr' : read m r <> None) by congruence.
      destruct (IH (write m r (f a))) as (m' & E1 & E2).
      { intros r' Hr1; destruct (place_dec r' r) as [->|N]; [rewrite read_write by exact Hr'; discriminate|].
        rewrite read_other by exact N; apply H; right; exact Hr1. }
      exists m'; split; [exact E1|]; intros q; rewrite E2; unfold occurs; destruct (place_dec r q) as [<-|N].
      + rewrite count_occ_cons_eq by reflexivity; rewrite read_write, Ea by exact Hr'; cbn [option_map]; rewrite iter_swap; reflexivity.
      + rewrite count_occ_cons_neq by exact N; rewrite read_other by congruence; reflexivity.
  Qed.

  Lemma write_all_app {G} (h : G -> A -> G * A) l l' : forall g m,
    write_all read write h (l ++ l') g m = ('(g1, m1) <- write_all read write h l g m ;; write_all read write h l' g1 m1).
  Proof.
    induction l as [|r l IH]; intros g m; cbn [write_all app bindR]; [reflexivity|].
    destruct (read m r); cbn [assume_init bindR]; [|reflexivity]; destruct (h g a); apply IH.
  Qed.

  Lemma for_each_slice_ok {G S} (next : nat -> S -> Res (option (list place) * S)) (h : G -> A -> G * A) slices :
    forall s g m x, yields_to_end next s slices -> write_all read write h (concat slices) g m = Ok x ->
    for_each_slice next read write h s g m ⇓ Ok x.
  Proof.
    unfold for_each_slice; induction slices as [|rs slices IH]; intros s g m x Y E.
    - destruct (yte_nil _ _ Y) as (s1 & Hn); injection E as <-; apply loop_done; cbn [for_each_slice_body].
      eapply conv_bind; [exact Hn|]; apply conv_ret.
    - destruct (yte_cons _ _ _ _ Y) as (s1 & Hn & Y1); cbn [concat] in E; rewrite write_all_app in E.
      destruct (write_all read write h rs g m) as [[g1 m1]| | |] eqn:Ew; try discriminate; cbn [bindR] in E.
      eapply loop_step; [|exact (IH s1 g1 m1 x Y1 E)].
      cbn [for_each_slice_body]; eapply conv_bind; [exact Hn|].
      apply conv_eq; intros _; rewrite Ew; reflexivity.
  Qed.
End Slices.

Lemma in_prefixes_read {A} (t : tree A) q : forall p, In p (prefixes q) -> tree_read t q <> None -> tree_read t p <> None.
Proof.
  revert t; unfold tree_read; induction q as [|i q IH]; intros [v ts] p Hp Hq; cbn in Hp.
  - destruct Hp as [<-|[]]; exact Hq.
  - destruct Hp as [<-|Hp]; [discriminate|]; apply in_map_iff in Hp as (p' & <- & Hp).
    cbn in Hq |- *; destruct (nth_error ts i); [exact (IH _ _ Hp Hq)|exact Hq].
Qed.
Lemma bin_prefixes_read {A} (t : btree A) q : forall p, In p (prefixes q) -> btree_read t q <> None -> btree_read t p <> None.
Proof.
  revert t; unfold btree_read; induction q as [|i q IH]; intros t p Hp Hq; cbn in Hp.
  - destruct Hp as [<-|[]]; exact Hq.
  - destruct Hp as [<-|Hp]; [discriminate|]; apply in_map_iff in Hp as (p' & <- & Hp).
    cbn in Hq |- *; destruct (bchild t i); [exact (IH _ _ Hp Hq)|exact Hq].
Qed.

Lemma Permutation_filter {A} (f : A -> bool) l l' : Permutation l l' -> Permutation (filter f l) (filter f l').
Proof.
  induction 1 as [|x l l' H IH|x y l|l l' l'' H1 IH1 H2 IH2]; cbn.
  - constructor.
  - destruct (f x); [constructor; exact IH|exact IH].
  - destruct (f x), (f y); repeat constructor; apply Permutation_refl.
  - eapply Permutation_trans; eassumption.
Qed.

Lemma for_each_slice_tree (o : forall X, tree X -> list X) (Ho : is_order o) {A S} (next : nat -> S -> Res (option (list place) * S)) (f : A -> A) s t :
  yields_to_end next s (map (ancestors_at tree_gvc) (o _ (positions (subtrees (tree_refs t))))) ->
  for_each_slice next tree_read tree_write (fun _ v => (tt, f v)) s tt t ⇓ Ok (tt, update_below f t).
Proof.
  rewrite (tree_slices o Ho); intros Y.
  destruct (write_all_pure (@tree_read A) (@tree_write A) (fun m r a => tree_read_write r m a) (fun m r a q => tree_read_other r m a q) f
    (concat (map prefixes (o _ (tree_refs t)))) t) as (t' & E1 & E2).
  - intros p Hp; apply in_concat in Hp as (l & Hl & Hp); apply in_map_iff in Hl as (q & <- & Hq).
    apply (in_prefixes_read t q p Hp).
    pose proof (in_map (tree_read t) _ _ Hq) as Hr; rewrite (refs_read o Ho) in Hr; apply in_map_iff in Hr as (a & Ha & _); congruence.
  - replace (update_below f t) with t'; [exact (for_each_slice_ok _ _ _ _ _ _ _ _ _ Y E1)|].
    apply tree_read_ext; intros p; rewrite E2, update_below_read.
    unfold tree_read; destruct (subtree_at t p) as [u|] eqn:Eu; [|reflexivity]; cbn [option_map]; do 2 f_equal.
    rewrite <- flat_map_concat_map, occurs_below.
    rewrite <- (below_paths p t u [] Eu); unfold below; cbn [app].
    apply Permutation_length, Permutation_filter.
    unfold paths_from; rewrite <- preorder_map; apply Ho.
Qed.

Lemma for_each_slice_btree (o : forall X, btree X -> list X) (Ho : is_border o) {A S} (next : nat -> S -> Res (option (list place) * S)) (f : A -> A) s t :
  yields_to_end next s (map (ancestors_at btree_gvcb) (o _ (bpositions (bsubtrees (btree_refs t))))) ->
  for_each_slice next btree_read btree_write (fun _ v => (tt, f v)) s tt t ⇓ Ok (tt, bupdate_below f t).
Proof.
  rewrite (btree_slices o Ho); intros Y.
  destruct (write_all_pure (@btree_read A) (@btree_write A) (fun m r a => btree_read_write r m a) (fun m r a q => btree_read_other r m a q) f
    (concat (map prefixes (o _ (btree_refs t)))) t) as (t' & E1 & E2).
  - intros p Hp; apply in_concat in Hp as (l & Hl & Hp); apply in_map_iff in Hl as (q & <- & Hq).
    apply (bin_prefixes_read t q p Hp).
    pose proof (in_map (btree_read t) _ _ Hq) as Hr; rewrite (brefs_read o Ho) in Hr; apply in_map_iff in Hr as (a & Ha & _); congruence.
  - replace (bupdate_below f t) with t'; [exact (for_each_slice_ok _ _ _ _ _ _ _ _ _ Y E1)|].
    apply btree_read_ext; intros p; rewrite E2, bupdate_below_read.
    unfold btree_read; destruct (bsubtree_at t p) as [u|] eqn:Eu; [|reflexivity]; cbn [option_map]; do 2 f_equal.
    rewrite <- flat_map_concat_map, occurs_below.
    rewrite <- (bbelow_paths p t u [] Eu); unfold below; cbn [app].
    apply Permutation_length, Permutation_filter.
    unfold bpaths_from; rewrite <- preorder_map, <- flat_btree_map; apply Ho.
Qed.
