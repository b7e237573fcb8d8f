(** * Property C54: user code that panics.

    [get_value_and_children] is written by the user.  It may panic, and the caller of [next()] may catch that panic
    and go on with the iterator.  [gvc n = None] says that the method panics on the node [n].  [fnode_tree] and the
    other words are in SpecUnwind.v, the iterators in ModelUnwind.v. *)
From Verif Require Import Prelim PrelimFacts Spec SpecFacts SpecObs ModelNode NodeFacts ModelBfs ModelPre ModelPost ModelIn ModelLeaves ModelUnwind SpecUnwind.
From Verif Require Import Slots ProofsPlain ProofsPre ProofsPost ProofsIn ProofsTree ProofsLeaves ProofsUnwind ProofsUnwindIn ProofsUnwindBfs ProofsUnwindTotal ProofsUnwindMid ProofsUnwindUntil.

(** A user's node type: a tree of numbers where the method panics on the number 0. *)
Definition shy_gvc (t : tree nat) : option (nat * list (tree nat)) :=
  match t with TNode 0 _ => None | TNode v ts => Some (v, ts) end.
Definition shy_gvcb (t : btree nat) : option (nat * (option (btree nat) * option (btree nat))) :=
  match t with BNode 0 _ _ => None | BNode v l r => Some (v, (l, r)) end.
Fixpoint shy_nt (t : tree nat) : tree (tree nat) :=
  match t with TNode v ts => TNode t (match v with 0 => [] | _ => map shy_nt ts end) end.
Fixpoint shy_bt (t : btree nat) : btree (btree nat) :=
  match t with
  | BNode 0 _ _ => BNode t None None
  | BNode _ l r => BNode t (match l with Some x => Some (shy_bt x) | None => None end)
                           (match r with Some x => Some (shy_bt x) | None => None end)
  end.
Example fnode_tree_met : fnode_tree shy_gvc shy_nt.
Proof. intros [[|v] ts]; reflexivity. Qed.
Example fnode_btree_met : fnode_btree shy_gvcb shy_bt.
Proof. intros [[|v] [l|] [r|]]; reflexivity. Qed.
Definition shy_tree : tree nat := TNode 1 [TNode 2 [TNode 0 [TNode 9 []]; TNode 4 []]; TNode 0 []; TNode 3 [TNode 5 []]].
Definition shy_btree : btree nat :=
  BNode 1 (Some (BNode 2 (Some (BNode 0 (Some (BNode 9 None None)) None)) (Some (BNode 4 None None)))) (Some (BNode 3 (Some (BNode 5 None None)) (Some (BNode 0 None None)))).

(** ** The plain iterators: every node that does not panic is given in its place, a node that panics lets the panic
    through in its place, and only what hangs from it is missing. *)
Theorem C54_bfs : forall Nd V (gvc : Nd -> option (V * list Nd)) nt, fnode_tree gvc nt ->
  forall n, yields (ubfs_next gvc) (bfs_new n) (map (seen gvc) (bfs (nt n))).
Proof. intros Nd V gvc nt H n; apply ubfs_yields; [exact H|apply bfs_yields, node_tot, H]. Qed.
Print Assumptions C54_bfs.

Theorem C54_preorder : forall Nd V (gvc : Nd -> option (V * list Nd)) nt, fnode_tree gvc nt ->
  forall n, yields (upre_next gvc) (pre_new n) (map (seen gvc) (preorder (nt n))).
Proof.
  intros Nd V gvc nt H n; rewrite <- (map_ext _ _ (seen_tot gvc)), <- map_map.
  apply (usim_yields _ _ got upre_R (upre_sim gvc) (pre_new n)); [left; reflexivity|apply pre_yields, node_tot, H].
Qed.
Print Assumptions C54_preorder.

Theorem C54_postorder : forall Nd V (gvc : Nd -> option (V * list Nd)) nt, fnode_tree gvc nt ->
  forall n, yields (upost_next gvc) (post_new n) (map (seen gvc) (postorder (nt n))).
Proof.
  intros Nd V gvc nt H n; rewrite <- (map_ext _ _ (seen_tot gvc)), <- map_map.
  apply (usim_yields _ _ got upost_R (upost_sim gvc) (post_new n)); [reflexivity|apply post_yields, node_tot, H].
Qed.
Print Assumptions C54_postorder.

Theorem C54_inorder : forall Nd V (gvcb : Nd -> option (V * (option Nd * option Nd))) bt, fnode_btree gvcb bt ->
  forall n, yields (uin_next gvcb) (in_new n) (map (seen gvcb) (inorder (bt n))).
Proof.
  intros Nd V gvcb bt H n; rewrite <- (map_ext _ _ (seen_btot gvcb)), <- map_map.
  apply (usim_yields _ _ got uin_R (uin_sim gvcb) (in_new n)).
  - split; [reflexivity|left; split; [reflexivity|right; reflexivity]].
  - apply in_yields, node_btot, H.
Qed.
Print Assumptions C54_inorder.

(** [leaves()]: the nodes without children, and the panics. *)
Theorem C54_leaves : forall Nd V (gvc : Nd -> option (V * list Nd)) nt, fnode_tree gvc nt ->
  forall n, yields (udleaves_next gvc) (pre_leaves (pre_new n)) (map (seen gvc) (filter (leaf_or_panic gvc) (preorder (nt n)))) /\
            yields (udleaves_next gvc) (post_leaves (post_new n)) (map (seen gvc) (filter (leaf_or_panic gvc) (preorder (nt n)))) /\
            yields (ubleaves_next gvc) (bfs_leaves (bfs_new n)) (map (seen gvc) (filter (leaf_or_panic gvc) (bfs (nt n)))).
Proof.
  intros Nd V gvc nt H n.
  assert (E : forall l, map (seen gvc) (filter (leaf_or_panic gvc) l) = map got (map (nval (tot gvc)) (filter (is_leaf (tot gvc)) l))).
  { intros l; rewrite map_map, (map_ext _ _ (seen_tot gvc)); f_equal; apply filter_ext; intros m.
    unfold leaf_or_panic, is_leaf, nkids, tot; destruct (gvc m) as [[v [|c cs]]|]; reflexivity. }
  rewrite !E; split; [|split].
  - apply (usim_yields _ _ got udl_R (udl_sim gvc) (pre_leaves (pre_new n))); [split; reflexivity|].
    exact (dleaves_yields_fresh _ nt (node_tot gvc nt H) n []).
  - apply (usim_yields _ _ got udl_R (udl_sim gvc) (post_leaves (post_new n))); [split; reflexivity|].
    exact (dleaves_yields_fresh _ nt (node_tot gvc nt H) n []).
  - apply (usim_yields _ _ got ubl_R (ubl_sim gvc) (bfs_leaves (bfs_new n))); [repeat split; apply qrel_refl|].
    apply (bleaves_yields _ nt (node_tot gvc nt H) n 0); exists []; apply calls_0.
Qed.
Print Assumptions C54_leaves.

(** [leaves()] of an iterator that has been used, where calls before and after may panic: every panic that is left comes, in its
    place, and of the leaves that are left the depth-first iterators give those that they give when nothing panics (C18). *)
Theorem C54_started_leaves : forall Nd V (gvc : Nd -> option (V * list Nd)) nt, fnode_tree gvc nt -> forall n k,
  let rest L := map (fun p => seen gvc (pos_here p))
    (filter (fun p => panics gvc (pos_here p) || leaf_or_panic gvc (pos_here p) && negb (parent_entered (firstn k L) p)) (skipn k L)) in
  (forall s, after (upre_next gvc) k (pre_new n) s ->
     yields (udleaves_next gvc) (pre_leaves s) (rest (preorder (positions (nt n))))) /\
  (forall s, after (upost_next gvc) k (post_new n) s ->
     yields (udleaves_next gvc) (post_leaves s) (rest (postorder (positions (nt n))))) /\
  (forall s, after (ubfs_next gvc) k (bfs_new n) s ->
     yields (ubleaves_next gvc) (bfs_leaves s) (map (seen gvc) (filter (leaf_or_panic gvc) (skipn k (bfs (nt n)))))).
Proof.
  intros Nd V gvc nt H n k rest.
  assert (Hg : forall m, tot gvc m = (nval (tot gvc) m, flat_map opt_list (map Some (nkids (tot gvc) m)))).
  { intros m; rewrite (gv_eq (tot gvc) m) at 1; f_equal; induction (nkids (tot gvc) m) as [|c cs IH]; [reflexivity|]; cbn; f_equal; exact IH. }
  pose proof (slot_law_nary (tot gvc) nt (node_tot gvc nt H)) as HT.
  split; [|split]; intros s Ha.
  - exact (upre_mid _ (map Some) _ HT gvc nt n H Hg k s Ha).
  - exact (upost_mid _ (map Some) _ HT gvc nt n H Hg k s Ha).
  - exact (ubfs_mid gvc nt n H k s Ha).
Qed.
Print Assumptions C54_started_leaves.

Theorem C54_started_leaves_binary : forall Nd V (gvcb : Nd -> option (V * (option Nd * option Nd))) bt, fnode_btree gvcb bt -> forall n k,
  let gvc := ubinary_gvc gvcb in
  let rest L := map (fun p => seen gvc (pos_here p))
    (filter (fun p => panics gvc (pos_here p) || leaf_or_panic gvc (pos_here p) && negb (parent_entered (firstn k L) p)) (skipn k L)) in
  (forall s, after (upre_next gvc) k (pre_new n) s ->
     yields (udleaves_next gvc) (pre_leaves s) (rest (preorder (flat (bpositions (bt n)))))) /\
  (forall s, after (upost_next gvc) k (post_new n) s ->
     yields (udleaves_next gvc) (post_leaves s) (rest (postorder (flat (bpositions (bt n)))))) /\
  (forall s, after (uin_next gvcb) k (in_new n) s ->
     exists s', in_leaves s = Ok s' /\ yields (udleaves_next gvc) s' (rest (inorder (bpositions (bt n))))).
Proof.
  intros Nd V gvcb bt H n k gvc rest.
  pose proof (slot_law_binary (btot gvcb) bt (node_btot gvcb bt H)) as HT.
  split; [|split]; intros s Ha.
  - exact (upre_mid _ pair_iter _ HT gvc _ n (fnode_binary gvcb bt H) (Hg_ubinary gvcb) k s Ha).
  - exact (upost_mid _ pair_iter _ HT gvc _ n (fnode_binary gvcb bt H) (Hg_ubinary gvcb) k s Ha).
  - exact (uin_mid gvcb bt H n k s Ha).
Qed.
Print Assumptions C54_started_leaves_binary.

(** After 1 and 2 the panic below 2 and the one below 1 come, and the leaf 4 is lost. *)
Example C54_started_ex : exists os s, calls (upre_next shy_gvc) 2 (pre_new shy_tree) 20 = Ok (os, s) /\
  exists s', calls (udleaves_next shy_gvc) 4 (pre_leaves s) 20 = Ok ([Some Unwound; Some Unwound; Some (Got 5); None], s').
Proof. vm_compute; do 2 eexists; split; [reflexivity|eexists; reflexivity]. Qed.

(** ** With ancestors: the slice of every node that does not panic is right, too. *)
Theorem C54_preorder_ancestors : forall Nd V (gvc : Nd -> option (V * list Nd)) nt, fnode_tree gvc nt ->
  forall n, exists s, pre_attach_ancestors (pre_new n) = Ok s /\
    yields (uprea_next gvc) s (map (seen_ancestors gvc) (preorder (positions (nt n)))).
Proof.
  intros Nd V gvc nt H n; eexists; split; [reflexivity|].
  rewrite <- (map_ext _ _ (seen_slice gvc)), <- map_map.
  apply (usim_yields _ _ got_slice uprea_R (uprea_sim gvc) (prea_new n)); [left; reflexivity|apply prea_yields, node_tot, H].
Qed.
Print Assumptions C54_preorder_ancestors.

Theorem C54_inorder_ancestors : forall Nd V (gvcb : Nd -> option (V * (option Nd * option Nd))) bt, fnode_btree gvcb bt ->
  forall n, exists s, in_attach_ancestors (in_new n) = Ok s /\
    yields (uina_next gvcb) s (map (seen_ancestors gvcb) (inorder (bpositions (bt n)))).
Proof.
  intros Nd V gvcb bt H n; eexists; split; [reflexivity|].
  replace (map (seen_ancestors gvcb) (inorder (bpositions (bt n)))) with (map anc_of (map got_ctx (map (context_at (btot gvcb)) (inorder (bpositions (bt n)))))).
  - apply (usim_yields _ _ anc_of (fun a b => b = strip_inc a) (uina_sim gvcb) (inc_new n [])); [reflexivity|].
    apply (usim_yields _ _ got_ctx uinc_R (uinc_sim gvcb) (inc_new n [])); [split; [reflexivity|exists None; left; reflexivity]|].
    exact (inc_yields _ bt [] (node_btot gvcb bt H) n).
  - rewrite !map_map; apply map_ext; intros p; rewrite seen_ctx; unfold seen_context, seen_ancestors.
    destruct (gvcb (pos_here p)) as [[? ?]|]; reflexivity.
Qed.
Print Assumptions C54_inorder_ancestors.

(** Breadth first, [attach_ancestors()] reads the root itself: it panics when the method panics there. *)
Theorem C54_bfs_ancestors : forall Nd V (gvc : Nd -> option (V * list Nd)) nt, fnode_tree gvc nt -> forall n,
  match ubfsa_new gvc n with
  | None => gvc n = None
  | Some s => yields_to_end (ubfsa_next gvc) s (map (seen_ancestors gvc) (bfs (positions (nt n))))
  end.
Proof.
  intros Nd V gvc nt H n; unfold ubfsa_new; destruct (gvc n) as [[v c]|] eqn:E; [|reflexivity].
  exact (ubfsa_yields gvc nt n v c H E).
Qed.
Print Assumptions C54_bfs_ancestors.

(** Its [leaves()], also after any number of calls up to the one that exhausts it: the leaves and the panics that are left. *)
Theorem C54_bfs_ancestors_leaves : forall Nd V (gvc : Nd -> option (V * list Nd)) nt, fnode_tree gvc nt -> forall n s0 k s,
  ubfsa_new gvc n = Some s0 -> k <= S (length (bfs (positions (nt n)))) -> after (ubfsa_next gvc) k s0 s ->
  yields (ubaleaves_next gvc) (bfsa_leaves s)
    (map (seen_ancestors gvc) (filter (fun p => leaf_or_panic gvc (pos_here p)) (skipn k (bfs (positions (nt n)))))).
Proof.
  intros Nd V gvc nt H n s0 k s E Hk Ha; unfold ubfsa_new in E; destruct (gvc n) as [[v c]|] eqn:Eg; [|discriminate E]; injection E as <-.
  exact (ubal_yields gvc nt n v c H Eg k s Hk Ha).
Qed.
Print Assumptions C54_bfs_ancestors_leaves.

Example C54_bfs_ancestors_leaves_ex : exists s0 s1 s2 l, ubfsa_new shy_gvc shy_tree = Some s0 /\ calls (ubfsa_next shy_gvc) 3 s0 60 = Ok (l, s1) /\
  3 <= S (length (bfs (positions (shy_nt shy_tree)))) /\
  calls (ubaleaves_next shy_gvc) 5 (bfsa_leaves s1) 60 = Ok ([Some Unwound; Some (Got [1; 2; 4]); Some (Got [1; 3; 5]); None; None], s2).
Proof. do 4 eexists; split; [reflexivity|]; split; [vm_compute; reflexivity|]; split; [vm_compute; repeat constructor|vm_compute; reflexivity]. Qed.

(** ** With context, inorder *)
Theorem C54_inorder_context : forall Nd V (gvcb : Nd -> option (V * (option Nd * option Nd))) bt, fnode_btree gvcb bt ->
  forall n, exists s, in_attach_context (in_new n) = Ok s /\
    yields (uinc_next gvcb) s (map (seen_context gvcb) (inorder (bpositions (bt n)))).
Proof.
  intros Nd V gvcb bt H n; eexists; split; [reflexivity|].
  rewrite <- (map_ext _ _ (seen_ctx gvcb)), <- map_map.
  apply (usim_yields _ _ got_ctx uinc_R (uinc_sim gvcb) (inc_new n [])); [split; [reflexivity|exists None; left; reflexivity]|].
  exact (inc_yields _ bt [] (node_btot gvcb bt H) n).
Qed.
Print Assumptions C54_inorder_context.

(** ** Binary nodes: the iterators above which are not inorder, with the [get_value_and_children] provided for them *)
Theorem C54_binary : forall Nd V (gvcb : Nd -> option (V * (option Nd * option Nd))) bt, fnode_btree gvcb bt ->
  fnode_tree (ubinary_gvc gvcb) (fun n => flat (bt n)) /\
  (forall n, seen (ubinary_gvc gvcb) n = seen gvcb n) /\
  forall n,
  yields (ubfs_next (ubinary_gvc gvcb)) (bfs_new n) (map (seen gvcb) (bfs (flat (bt n)))) /\
  yields (upre_next (ubinary_gvc gvcb)) (pre_new n) (map (seen gvcb) (preorder (flat (bt n)))) /\
  yields (upost_next (ubinary_gvc gvcb)) (post_new n) (map (seen gvcb) (postorder (flat (bt n)))).
Proof.
  intros Nd V gvcb bt H.
  assert (Ht : fnode_tree (ubinary_gvc gvcb) (fun n => flat (bt n))).
  { intros n; rewrite H; unfold ubinary_gvc; destruct (gvcb n) as [[v [[l|] [r|]]]|]; reflexivity. }
  assert (Hs : forall n, seen (ubinary_gvc gvcb) n = seen gvcb n).
  { intros n; unfold seen, ubinary_gvc; destruct (gvcb n) as [[v c]|]; reflexivity. }
  split; [exact Ht|split; [exact Hs|intros n]].
  rewrite <- !(map_ext _ _ Hs); split; [exact (C54_bfs _ _ _ _ Ht n)|split; [exact (C54_preorder _ _ _ _ Ht n)|exact (C54_postorder _ _ _ _ Ht n)]].
Qed.
Print Assumptions C54_binary.

Example C54_ex : exists s1 s2 s3 s4 s5,
  calls (ubfs_next shy_gvc) 8 (bfs_new shy_tree) 40 =
    Ok ([Some (Got 1); Some (Got 2); Some Unwound; Some (Got 3); Some Unwound; Some (Got 4); Some (Got 5); None], s1) /\
  calls (upost_next shy_gvc) 8 (post_new shy_tree) 40 =
    Ok ([Some Unwound; Some (Got 4); Some (Got 2); Some Unwound; Some (Got 5); Some (Got 3); Some (Got 1); None], s2) /\
  calls (uin_next shy_gvcb) 8 (in_new shy_btree) 40 =
    Ok ([Some Unwound; Some (Got 2); Some (Got 4); Some (Got 1); Some (Got 5); Some (Got 3); Some Unwound; None], s3) /\
  calls (uprea_next shy_gvc) 8 (prea_new shy_tree) 40 =
    Ok ([Some (Got [1]); Some (Got [1; 2]); Some Unwound; Some (Got [1; 2; 4]); Some Unwound; Some (Got [1; 3]); Some (Got [1; 3; 5]); None], s4) /\
  calls (ubleaves_next shy_gvc) 5 (bfs_leaves (bfs_new shy_tree)) 40 =
    Ok ([Some Unwound; Some Unwound; Some (Got 4); Some (Got 5); None], s5).
Proof. vm_compute; do 5 eexists; repeat split; reflexivity. Qed.

Example C54_bfs_ancestors_ex : exists s s', ubfsa_new shy_gvc shy_tree = Some s /\
  calls (ubfsa_next shy_gvc) 8 s 60 =
    Ok ([Some (Got [1]); Some (Got [1; 2]); Some Unwound; Some (Got [1; 3]); Some Unwound; Some (Got [1; 2; 4]); Some (Got [1; 3; 5]); None], s').
Proof. eexists; eexists; split; [reflexivity|vm_compute; reflexivity]. Qed.

Example C54_inorder_context_ex : exists s s', in_attach_context (in_new shy_btree) = Ok s /\
  exists l, calls (uinc_next shy_gvcb) 8 s 60 = Ok (l, s') /\
  map (option_map (fun o => match o with Got c => Some (map N.to_nat (c_path c), c_ancestors c) | Unwound => None end)) l =
    [Some None; Some (Some ([0], [1; 2])); Some (Some ([0; 1], [1; 2; 4])); Some (Some ([], [1])); Some (Some ([1; 0], [1; 3; 5]));
     Some (Some ([1], [1; 3])); Some None; None].
Proof. eexists; eexists; split; [reflexivity|vm_compute; eexists; split; reflexivity]. Qed.

(** ** The others are right up to the first panic, that panic included. *)
Theorem C54_until_panic_ancestors : forall Nd V (gvc : Nd -> option (V * list Nd)) nt, fnode_tree gvc nt -> forall n,
  (exists s, post_attach_ancestors (post_new n) = Ok s /\
     yields_until_panic (uposta_next gvc) s (map (seen_ancestors gvc) (postorder (positions (nt n))))) /\
  (forall s, s = prea_leaves (prea_new n) \/ s = posta_leaves (post_new n) ->
     yields_until_panic (udaleaves_next gvc) s
       (map (seen_ancestors gvc) (filter (fun p => leaf_or_panic gvc (pos_here p)) (preorder (positions (nt n)))))).
Proof.
  intros Nd V gvc nt H n; split.
  - eexists; split; [reflexivity|exact (posta_until gvc nt n H)].
  - intros s [->| ->]; exact (daleaves_until gvc nt n H).
Qed.
Print Assumptions C54_until_panic_ancestors.

Theorem C54_until_panic_context : forall Nd V (gvc : Nd -> option (V * list Nd)) nt, fnode_tree gvc nt -> forall n, small_fnodes gvc (nt n) ->
  (exists s, pre_attach_context (pre_new n) = Ok s /\
     yields_until_panic (uprec_next gvc) s (map (seen_context gvc) (preorder (positions (nt n))))) /\
  (exists s, post_attach_context (post_new (V := V) n) = Ok s /\
     yields_until_panic (upostc_next gvc) s (map (seen_context gvc) (postorder (positions (nt n))))) /\
  match ubfsc_new gvc n with
  | None => gvc n = None
  | Some s => yields_until_panic (ubfsc_next gvc) s (map (seen_context gvc) (bfs (positions (nt n))))
  end.
Proof.
  intros Nd V gvc nt H n Hs; split; [|split].
  - eexists; split; [reflexivity|exact (prec_until gvc nt [] n H Hs)].
  - eexists; split; [reflexivity|exact (postc_until gvc nt [] n H Hs)].
  - destruct (ubfsc_new gvc n) as [s|] eqn:E; [exact (bfsc_until gvc nt [] n s H Hs E)|].
    unfold ubfsc_new, ubfsc_start in E; destruct (gvc n) as [[v c]|]; [discriminate E|reflexivity].
Qed.
Print Assumptions C54_until_panic_context.

Example small_fnodes_met : small_fnodes shy_gvc (shy_nt shy_tree).
Proof.
  assert (H : forallb (fun m => match shy_gvc m with Some (_, kids) => (N.of_nat (length kids) <=? usize_max)%N | None => true end) (preorder (shy_nt shy_tree)) = true) by (vm_compute; reflexivity).
  rewrite forallb_forall in H; apply Forall_forall; intros m Hm v kids E; specialize (H m Hm); rewrite E in H; apply N.leb_le, H.
Qed.

(** The first panic of [shy_tree] comes third in preorder, after contexts that are right. *)
Example C54_until_ex : exists s1 s2, 
  calls (uprec_next shy_gvc) 3 (prec_new shy_tree []) 20 =
    Ok ([Some (Got (mkCtx [] [1] (Some [TNode 2 [TNode 0 [TNode 9 []]; TNode 4 []]; TNode 0 []; TNode 3 [TNode 5 []]])));
         Some (Got (mkCtx [0%N] [1; 2] (Some [TNode 0 [TNode 9 []]; TNode 4 []]))); Some Unwound], s1) /\
  calls (uposta_next shy_gvc) 3 (post_new (TNode 1 [TNode 2 [TNode 4 []]; TNode 0 []])) 20 =
    Ok ([Some (Got [1; 2; 4]); Some (Got [1; 2]); Some Unwound], s2).
Proof. vm_compute; do 2 eexists; split; reflexivity. Qed.

(** A panic on the root ends each of them: the panic comes once, and then there is nothing more. *)
Theorem C54_root_panic : forall Nd V (gvc : Nd -> option (V * list Nd)) n, gvc n = None ->
  yields (uprea_next gvc) (prea_new n) [Unwound] /\
  yields (uposta_next gvc) (post_new n) [Unwound] /\
  yields (udaleaves_next gvc) (prea_leaves (prea_new n)) [Unwound] /\
  yields (uprec_next gvc) (prec_new n []) [Unwound] /\
  yields (upostc_next gvc) (postc_new n []) [Unwound] /\
  ubfsa_new gvc n = None /\ ubfsc_new gvc n = None.
Proof.
  intros Nd V gvc n E.
  assert (Hend : forall S A (next : nat -> S -> Res (option (outcome A) * S)) s s1,
    (fun f => next f s) ⇓ Ok (Some Unwound, s1) -> (fun f => next f s1) ⇓ Ok (None, s1) -> yields next s [Unwound]).
  { intros S A next s s1 H1 H2.
    apply (step_inv_yields next (fun x l => (x = s /\ l = [Unwound]) \/ (x = s1 /\ l = []))); [|left; auto].
    intros x l [[-> ->]|[-> ->]]; (exists s1; split; [assumption|right; auto]). }
  repeat split.
  - apply (Hend _ _ _ _ (mkPrea None [] [])).
    + apply conv_eq; intros; unfold uprea_next, uprea_advance, prea_new; cbn [pa_root]; rewrite E; reflexivity.
    + exists 1; intros [|f] Hf; [lia|reflexivity].
  - apply (Hend _ _ _ _ (mkPost None [] [])).
    + apply conv_eq; intros; unfold uposta_next, uposta_advance, post_new; cbn [po_root]; rewrite E; reflexivity.
    + exists 1; intros [|f] Hf; [lia|reflexivity].
  - apply (Hend _ _ _ _ (mkDa None [] [] [])).
    + apply conv_eq; intros; unfold udaleaves_next, udaleaves_advance, prea_leaves, prea_new; cbn [pa_root pa_items pa_stack da_root]; rewrite E; reflexivity.
    + exists 1; intros [|f] Hf; [lia|reflexivity].
  - apply (Hend _ _ _ _ (mkPrec None [] [] [] None)).
    + apply conv_eq; intros; unfold uprec_next, uprec_advance, prec_new; cbn [pc_root]; rewrite E; reflexivity.
    + apply conv_eq; reflexivity.
  - apply (Hend _ _ _ _ (mkPostc None [] [] [] [] None)).
    + apply conv_eq; intros; unfold upostc_next, upostc_advance, postc_new; cbn [ModelPost.pt_root]; rewrite E; reflexivity.
    + apply conv_eq; reflexivity.
  - unfold ubfsa_new; rewrite E; reflexivity.
  - unfold ubfsc_new, ubfsc_start; rewrite E; reflexivity.
Qed.
Print Assumptions C54_root_panic.

(** ** After it they are left in a wrong state.

    In each of these the first child [f] of the root panics.  Postorder with ancestors, and the leaves with ancestors:
    the next node is given without its ancestors, and then the root is never given. *)
Theorem C54_postorder_ancestors_refuted : forall Nd V (gvc : Nd -> option (V * list Nd)) r v f b w,
  gvc r = Some (v, [f; b]) -> gvc f = None -> gvc b = Some (w, []) ->
  exists s s', post_attach_ancestors (post_new r) = Ok s /\
    calls (uposta_next gvc) 3 s ⇓ Ok ([Some Unwound; Some (Got [w]); None], s').
Proof.
  intros Nd V gvc r v f b w Er Ef Eb; do 2 eexists; split; [reflexivity|].
  exists 3; intros [|[|[|k]]] Hk; try lia; cbn; unfold uposta_next, uposta_advance; cbn; rewrite Er; cbn; rewrite Ef; cbn; rewrite Eb; cbn; reflexivity.
Qed.
Print Assumptions C54_postorder_ancestors_refuted.

Theorem C54_ancestors_leaves_refuted : forall Nd V (gvc : Nd -> option (V * list Nd)) r v f b w,
  gvc r = Some (v, [f; b]) -> gvc f = None -> gvc b = Some (w, []) ->
  exists s', calls (udaleaves_next gvc) 2 (prea_leaves (prea_new r)) ⇓ Ok ([Some Unwound; Some (Got [w])], s').
Proof.
  intros Nd V gvc r v f b w Er Ef Eb; eexists.
  exists 4; intros [|[|[|[|k]]]] Hk; try lia; cbn; unfold udaleaves_next, udaleaves_advance; cbn; rewrite Er; cbn; rewrite Ef; cbn; rewrite Eb; cbn; reflexivity.
Qed.
Print Assumptions C54_ancestors_leaves_refuted.

(** The same with a panic that comes later: the nodes before it are right, those after it lack ancestors; and with the leaves of an
    iterator that has given the root. *)
Theorem C54_later_panic_refuted : forall Nd V (gvc : Nd -> option (V * list Nd)) r v a w f b x,
  gvc r = Some (v, [a; f; b]) -> gvc a = Some (w, []) -> gvc f = None -> gvc b = Some (x, []) ->
  (exists s', calls (uposta_next gvc) 4 (post_new r) ⇓ Ok ([Some (Got [v; w]); Some Unwound; Some (Got [x]); None], s')) /\
  (exists s', calls (udaleaves_next gvc) 4 (prea_leaves (prea_new r)) ⇓ Ok ([Some (Got [v; w]); Some Unwound; Some (Got [x]); None], s')) /\
  (exists s s', after (uprea_next gvc) 1 (prea_new r) s /\
     calls (udaleaves_next gvc) 4 (prea_leaves s) ⇓ Ok ([Some (Got [w]); Some Unwound; Some (Got [x]); None], s')).
Proof.
  intros Nd V gvc r v a w f b x Er Ea Ef Eb; split; [|split].
  - eexists; exists 9; intros k Hk; do 9 (destruct k as [|k]; [lia|]); cbn; unfold uposta_next, uposta_advance; cbn; rewrite Er; cbn; rewrite Ea; cbn; rewrite Ef; cbn; rewrite Eb; cbn; reflexivity.
  - eexists; exists 9; intros k Hk; do 9 (destruct k as [|k]; [lia|]); cbn; unfold udaleaves_next, udaleaves_advance; cbn; rewrite Er; cbn; rewrite Ea; cbn; rewrite Ef; cbn; rewrite Eb; cbn; reflexivity.
  - exists (mkPrea None [[a; f; b]] [v]); eexists; split.
    + eexists; eapply calls_S; [|apply calls_0]; apply conv_eq; intros; unfold uprea_next, uprea_advance, prea_new; cbn [pa_root]; rewrite Er; reflexivity.
    + exists 9; intros k Hk; do 9 (destruct k as [|k]; [lia|]); cbn; unfold udaleaves_next, udaleaves_advance; cbn; rewrite Ea; cbn; rewrite Ef; cbn; rewrite Eb; cbn; reflexivity.
Qed.
Print Assumptions C54_later_panic_refuted.

(** Preorder with context: the path is right, the ancestors are not. *)
Theorem C54_preorder_context_refuted : forall Nd V (gvc : Nd -> option (V * list Nd)) r v f b rest w kids,
  gvc r = Some (v, f :: b :: rest) -> gvc f = None -> gvc b = Some (w, kids) ->
  exists s s', pre_attach_context (pre_new r) = Ok s /\
    calls (uprec_next gvc) 3 s ⇓
      Ok ([Some (Got (mkCtx [] [v] (Some (f :: b :: rest)))); Some Unwound; Some (Got (mkCtx [1%N] [w] (Some kids)))], s').
Proof.
  intros Nd V gvc r v f b rest w kids Er Ef Eb; do 2 eexists; split; [reflexivity|].
  eapply calls_S; [|eapply calls_S; [|eapply calls_S; [|apply calls_0]]].
  - apply conv_eq; intros k; unfold uprec_next, uprec_advance, prec_new; cbn [pc_root]; rewrite Er; reflexivity.
  - eapply (conv_bind _ (Raised (mkPrec None [b :: rest] [0%N] [v] None)) (fun _ => _)); [|apply conv_eq; reflexivity].
    unfold uprec_advance; cbn [pc_root pc_anc pc_children pc_stack pc_path].
    eapply (conv_bind _ _ (fun _ => _)); [apply loop_done, conv_eq; intros; reflexivity|].
    apply conv_eq; intros; cbn beta iota; rewrite Ef; reflexivity.
  - eapply (conv_bind _ (Done (mkPrec None [rest] [1%N] [w] (Some kids))) (fun _ => _)); [|apply conv_eq; reflexivity].
    unfold uprec_advance; cbn [pc_root pc_anc pc_children pc_stack pc_path].
    eapply (conv_bind _ _ (fun _ => _)); [apply loop_done, conv_eq; intros; reflexivity|].
    apply conv_eq; intros; cbn beta iota; rewrite Eb; reflexivity.
Qed.
Print Assumptions C54_preorder_context_refuted.

(** Postorder with context: the rest of the tree is lost. *)
Theorem C54_postorder_context_refuted : forall Nd V (gvc : Nd -> option (V * list Nd)) r v f rest k,
  gvc r = Some (v, f :: rest) -> gvc f = None ->
  exists s s', post_attach_context (post_new (V := V) r) = Ok s /\
    calls (upostc_next gvc) (S k) s ⇓ Ok (Some Unwound :: repeat None k, s').
Proof.
  intros Nd V gvc r v f rest k Er Ef.
  assert (Hnone : forall j s, pt_root s = None -> tl (pt_anc s) = [] -> exists s', calls (upostc_next gvc) j s ⇓ Ok (repeat None j, s')).
  { induction j as [|j IH]; intros s Hr Ht; [exists s; apply calls_0|].
    set (s1 := mkPostc None (pt_stack s) (pt_conts s) (pt_path s) [] (pt_children s) : postc Nd V Nd (list Nd)).
    destruct (IH s1) as (s' & Hc); [reflexivity|reflexivity|].
    exists s'; cbn [repeat]; eapply calls_S; [|exact Hc].
    apply conv_eq; intros; unfold upostc_next, upostc_advance; rewrite Hr, Ht; reflexivity. }
  eexists.
  destruct (Hnone k (mkPostc None [rest] [f :: rest] [0%N] [v] None)) as (s' & Hc); [reflexivity|reflexivity|].
  exists s'; split; [reflexivity|]; eapply calls_S; [|exact Hc].
  eapply (conv_bind _ (Raised (mkPostc None [rest] [f :: rest] [0%N] [v] None)) (fun _ => _)); [|apply conv_eq; reflexivity].
  unfold upostc_advance, postc_new; cbn [pt_root pt_stack pt_conts pt_path pt_anc pt_children]; rewrite Er.
  eapply (conv_bind _ (Raised ([rest], [f :: rest], [0%N], [v]), None) (fun _ => _)); [apply loop_done, conv_eq; intros; unfold upostc_body; cbn [rev]|apply conv_eq; reflexivity].
  unfold incr_last; cbn [bindR]; rewrite Ef; reflexivity.
Qed.
Print Assumptions C54_postorder_context_refuted.

(** Breadth first with context: the call after the next panics by itself ([None.unwrap()]). *)
Theorem C54_bfs_context_refuted : forall Nd V (gvc : Nd -> option (V * list Nd)) r v f rest,
  gvc r = Some (v, f :: rest) -> gvc f = None ->
  exists s s', ubfsc_new gvc r = Some s /\
    calls (ubfsc_next gvc) 2 s ⇓ Ok ([Some (Got (mkCtx [] [v] (Some (f :: rest)))); Some Unwound], s') /\
    (fun fu => ubfsc_next gvc fu s') ⇓ Panic.
Proof.
  intros Nd V gvc r v f rest Er Ef; do 2 eexists; split; [unfold ubfsc_new, ubfsc_start; rewrite Er; reflexivity|split].
  - eapply calls_S; [apply conv_eq; reflexivity|eapply calls_S; [|apply calls_0]].
    eapply (conv_bind _ (Raised (mkBfsc false cn_default [] [rest] [0%N] [v] None 1%N)) (fun _ => _)); [|apply conv_eq; reflexivity].
    unfold ubfsc_advance; cbn.
    apply loop_done, conv_eq; intros; unfold ubfsc_body; cbn; rewrite Ef; reflexivity.
  - apply conv_eq; reflexivity.
Qed.
Print Assumptions C54_bfs_context_refuted.

Example C54_refuted_met : exists s1 s2 s3 s4,
  calls (uposta_next shy_gvc) 3 (post_new (TNode 1 [TNode 0 []; TNode 2 []])) 9 = Ok ([Some Unwound; Some (Got [2]); None], s1) /\
  calls (udaleaves_next shy_gvc) 2 (prea_leaves (prea_new (TNode 1 [TNode 0 []; TNode 2 []]))) 9 = Ok ([Some Unwound; Some (Got [2])], s2) /\
  calls (uprec_next shy_gvc) 3 (prec_new (TNode 1 [TNode 0 []; TNode 2 []]) []) 9 =
    Ok ([Some (Got (mkCtx [] [1] (Some [TNode 0 []; TNode 2 []]))); Some Unwound; Some (Got (mkCtx [1%N] [2] (Some [])))], s3) /\
  calls (upostc_next shy_gvc) 3 (postc_new (TNode 1 [TNode 0 []; TNode 2 []]) []) 9 = Ok ([Some Unwound; None; None], s4) /\
  exists s, ubfsc_new shy_gvc (TNode 1 [TNode 0 []; TNode 2 []]) = Some s /\ calls (ubfsc_next shy_gvc) 3 s 9 = Panic.
Proof. vm_compute; do 4 eexists; repeat split; eexists; split; reflexivity. Qed.

(** ** When the method never panics these iterators are the ones of the other properties. *)
Theorem C54_no_panic : forall Nd V (g : Nd -> V * list Nd) (gb : Nd -> V * (option Nd * option Nd)) fuel,
  let u := fun n => Some (g n) in let ub := fun n => Some (gb n) in
  let went {S A} (m : Res (option A * S)) := '(o, s) <- m ;; Ok (option_map Got o, s) in
  (forall s, ubfs_next u fuel s = went (bfs_next g fuel s)) /\
  (forall s, upre_next u fuel s = went (pre_next g fuel s)) /\
  (forall s, upost_next u fuel s = went (post_next g fuel s)) /\
  (forall s, udleaves_next u fuel s = went (dleaves_next g fuel s)) /\
  (forall s, ubleaves_next u fuel s = went (bleaves_next g fuel s)) /\
  (forall s, uprea_next u fuel s = went (prea_next g fuel s)) /\
  (forall s, uposta_next u fuel s = went (posta_next g fuel s)) /\
  (forall s, udaleaves_next u fuel s = went (daleaves_next g fuel s)) /\
  (forall s, ubfsa_next u fuel s = went (bfsa_next g fuel s)) /\
  (forall s, ubaleaves_next u fuel s = went (baleaves_next g fuel s)) /\
  (forall s, uprec_next u fuel s = went (prec_next g fuel s)) /\
  (forall s, upostc_next u fuel s = went (postc_next g fuel s)) /\
  (forall s, ubfsc_next u fuel s = went (bfsc_next g fuel s)) /\
  (forall s, uin_next ub fuel s = went (in_next gb fuel s)) /\
  (forall s, uina_next ub fuel s = went (ina_next gb fuel s)) /\
  (forall s, uinc_next ub fuel s = went (inc_next gb fuel s)) /\
  (forall n, ubfsa_new u n = Some (bfsa_new g n)) /\
  (forall n, ubfsc_new u n = Some (bfsc_new (fst (g n)) (snd (g n)) [])) /\
  (forall n, ubinary_gvc ub n = Some (binary_gvc gb n)).
Proof.
  intros Nd V g gb fuel u ub went.
  assert (E : forall S A (m : Res (option A * S)), went _ _ m = (x <- m ;; Ok (ran_ok x))) by (intros S A [[? ?]| | |]; reflexivity).
  repeat apply conj; intros; rewrite ?E.
  - apply ubfs_total. - apply upre_total. - apply upost_total. - apply udleaves_total. - apply ubleaves_total.
  - apply uprea_total. - apply uposta_total. - apply udaleaves_total. - apply ubfsa_total. - apply ubaleaves_total. - apply uprec_total.
  - apply upostc_total. - apply ubfsc_total. - apply uin_total. - apply uina_total. - apply uinc_total.
  - apply ubfsa_new_total. - apply ubfsc_new_total. - apply ubinary_total.
Qed.
Print Assumptions C54_no_panic.
