(** * Property C54 over collections of trees: user code that panics.

    [coll_new trees] stands for the iterator of [bfs_each()] and the others over the collection; [each] and [in_tree] are in
    SpecObs.v, the other words in SpecUnwind.v, the iterators in ModelUnwindColl.v. *)
From Verif Require Import Prelim PrelimFacts Spec SpecFacts SpecObs ModelNode NodeFacts ModelBfs ModelPre ModelPost ModelIn ModelColl ModelUnwind ModelUnwindColl SpecUnwind.
From Verif Require Import Slots ProofsColl ProofsUnwind ProofsUnwindIn ProofsUnwindUntil ProofsUnwindTotal ProofsUnwindColl PropUnwind.

Lemma map_each {T A B} (f : A -> B) (L : T -> list A) trees : map f (flat_map L trees) = flat_map (fun t => map f (L t)) trees.
Proof. induction trees as [|t ts IH]; cbn; [reflexivity|]; rewrite map_app, IH; reflexivity. Qed.

(** ** The plain iterators: the trees one after another, each as alone. *)
Theorem C54_each : forall Nd V (gvc : Nd -> option (V * list Nd)) nt, fnode_tree gvc nt -> forall trees,
  yields (ubfs_each_next gvc) (coll_new trees) (map (seen gvc) (flat_map (fun n => bfs (nt n)) trees)) /\
  yields (upre_each_next gvc) (coll_new trees) (map (seen gvc) (flat_map (fun n => preorder (nt n)) trees)) /\
  yields (upost_each_next gvc) (coll_new trees) (map (seen gvc) (flat_map (fun n => postorder (nt n)) trees)).
Proof.
  intros Nd V gvc nt H trees; rewrite !map_each; repeat split; apply coll_yields; intros n;
    [apply C54_bfs|apply C54_preorder|apply C54_postorder]; exact H.
Qed.
Print Assumptions C54_each.

Theorem C54_each_binary : forall Nd V (gvcb : Nd -> option (V * (option Nd * option Nd))) bt, fnode_btree gvcb bt -> forall trees,
  yields (ubfs_each_next (ubinary_gvc gvcb)) (coll_new trees) (map (seen gvcb) (flat_map (fun n => bfs (flat (bt n))) trees)) /\
  yields (upre_each_next (ubinary_gvc gvcb)) (coll_new trees) (map (seen gvcb) (flat_map (fun n => preorder (flat (bt n))) trees)) /\
  yields (upost_each_next (ubinary_gvc gvcb)) (coll_new trees) (map (seen gvcb) (flat_map (fun n => postorder (flat (bt n))) trees)) /\
  yields (uin_each_next gvcb) (coll_new trees) (map (seen gvcb) (flat_map (fun n => inorder (bt n)) trees)).
Proof.
  intros Nd V gvcb bt H trees; destruct (C54_binary Nd V gvcb bt H) as (_ & _ & Hb); rewrite !map_each; repeat split; apply coll_yields; intros n;
    [apply Hb|apply Hb|apply Hb|apply C54_inorder; exact H].
Qed.
Print Assumptions C54_each_binary.

(** ** With context: inorder gives everything, as for one tree. *)
Theorem C54_each_inorder_context : forall Nd V (gvcb : Nd -> option (V * (option Nd * option Nd))) bt, fnode_btree gvcb bt ->
  forall trees, small_collection trees ->
  exists s, coll_attach (coll_new trees : coll Nd (in_iter Nd V)) = Ok s /\
    yields (uinc_each_next gvcb) s (each (fun i n => map (fun p => seen_context gvcb (in_tree i p)) (inorder (bpositions (bt n)))) trees).
Proof. intros Nd V gvcb bt H trees Hc; eexists; split; [reflexivity|exact (uinc_each gvcb bt H trees Hc)]. Qed.
Print Assumptions C54_each_inorder_context.

(** The others are right up to the first panic, that panic included. *)
Theorem C54_each_until_panic_context : forall Nd V (gvc : Nd -> option (V * list Nd)) nt, fnode_tree gvc nt ->
  forall trees, small_collection trees -> Forall (fun n => small_fnodes gvc (nt n)) trees ->
  let told L := each (fun i n => map (fun p => seen_context gvc (in_tree i p)) (L (positions (nt n)))) trees in
  (exists s, coll_attach (coll_new trees : coll Nd (bfs_iter Nd)) = Ok s /\ yields_until_panic (ubfsc_each_next gvc) s (told bfs)) /\
  (exists s, coll_attach (coll_new trees : coll Nd (pre_iter Nd)) = Ok s /\ yields_until_panic (uprec_each_next gvc) s (told preorder)) /\
  (exists s, coll_attach (coll_new trees : coll Nd (post_iter Nd V)) = Ok s /\ yields_until_panic (upostc_each_next gvc) s (told postorder)).
Proof.
  intros Nd V gvc nt H trees Hc Hs told; repeat split; eexists; (split; [reflexivity|]);
    [exact (ubfsc_each gvc nt H trees Hs Hc)|exact (uprec_each gvc nt H trees Hs Hc)|exact (upostc_each gvc nt H trees Hs Hc)].
Qed.
Print Assumptions C54_each_until_panic_context.

(** If only roots panic, they too give everything: a root that panics costs its own tree, and the trees after it keep their indices. *)
Theorem C54_each_root_panic_context : forall Nd V (gvc : Nd -> option (V * list Nd)) nt, fnode_tree gvc nt ->
  forall trees, small_collection trees -> Forall (fun n => small_fnodes gvc (nt n)) trees ->
  Forall (fun n => gvc n = None \/ forall m, In m (preorder (nt n)) -> gvc m <> None) trees ->
  let told L := each (fun i n => map (fun p => seen_context gvc (in_tree i p)) (L (positions (nt n)))) trees in
  (exists s, coll_attach (coll_new trees : coll Nd (bfs_iter Nd)) = Ok s /\ yields (ubfsc_each_next gvc) s (told bfs)) /\
  (exists s, coll_attach (coll_new trees : coll Nd (pre_iter Nd)) = Ok s /\ yields (uprec_each_next gvc) s (told preorder)) /\
  (exists s, coll_attach (coll_new trees : coll Nd (post_iter Nd V)) = Ok s /\ yields (upostc_each_next gvc) s (told postorder)).
Proof.
  intros Nd V gvc nt H trees Hc Hs Hr told; repeat split; eexists; (split; [reflexivity|]);
    [exact (ubfsc_each_roots gvc nt H trees Hs Hc Hr)|exact (uprec_each_roots gvc nt H trees Hs Hc Hr)|exact (upostc_each_roots gvc nt H trees Hs Hc Hr)].
Qed.
Print Assumptions C54_each_root_panic_context.

(** ** Cases that meet the hypotheses.  [fnode_tree_met] and [fnode_btree_met] of PropUnwind.v are about the same nodes. *)
Definition shy_trees : list (tree nat) := [TNode 1 [TNode 2 []; TNode 3 []]; TNode 0 [TNode 9 []]; TNode 4 [TNode 5 [TNode 6 []]]; TNode 0 []].
Definition shy_btrees : list (btree nat) :=
  [BNode 0 (Some (BNode 9 None None)) None; BNode 1 (Some (BNode 0 None None)) (Some (BNode 2 None None)); BNode 3 None None].
Example shy_trees_met : small_collection shy_trees /\ Forall (fun n => small_fnodes shy_gvc (shy_nt n)) shy_trees /\
  Forall (fun n => shy_gvc n = None \/ forall m, In m (preorder (shy_nt n)) -> shy_gvc m <> None) shy_trees.
Proof.
  split; [unfold small_collection; vm_compute; discriminate|split].
  - assert (H : forallb (fun n => forallb (fun m => match shy_gvc m with Some (_, kids) => (N.of_nat (length kids) <=? usize_max)%N | None => true end) (preorder (shy_nt n))) shy_trees = true)
      by (vm_compute; reflexivity).
    rewrite forallb_forall in H; apply Forall_forall; intros n Hn; specialize (H n Hn).
    rewrite forallb_forall in H; apply Forall_forall; intros m Hm v kids E; specialize (H m Hm); rewrite E in H; apply N.leb_le, H.
  - assert (Hq : forall n, forallb (fun m => match shy_gvc m with Some _ => true | None => false end) (preorder (shy_nt n)) = true ->
      forall m, In m (preorder (shy_nt n)) -> shy_gvc m <> None)
      by (intros n H m Hm E; rewrite forallb_forall in H; specialize (H m Hm); rewrite E in H; discriminate H).
    apply Forall_cons; [right; apply Hq; reflexivity|]; apply Forall_cons; [left; reflexivity|].
    apply Forall_cons; [right; apply Hq; reflexivity|]; apply Forall_cons; [left; reflexivity|constructor].
Qed.
(** The contexts as a caller sees them: the path and the ancestors, or the panic. *)
Definition told_short {V C} (o : option (outcome (tree_context V C))) : option (option (list nat * list V)) :=
  option_map (fun o => match o with Got c => Some (map N.to_nat (c_path c), c_ancestors c) | Unwound => None end) o.
Example C54_each_ex : exists s, calls (upre_each_next shy_gvc) 9 (coll_new (shy_trees ++ [shy_tree])) 60 =
  Ok ([Some (Got 1); Some (Got 2); Some (Got 3); Some Unwound; Some (Got 4); Some (Got 5); Some (Got 6); Some Unwound; Some (Got 1)], s).
Proof. vm_compute; eexists; reflexivity. Qed.
Example C54_each_root_ex : exists s s', coll_attach (coll_new shy_trees : coll (tree nat) (bfs_iter (tree nat))) = Ok s /\
  exists l, calls (ubfsc_each_next shy_gvc) 9 s 60 = Ok (l, s') /\
  map told_short l = [Some (Some ([0], [1])); Some (Some ([0; 0], [1; 2])); Some (Some ([0; 1], [1; 3])); Some None;
                      Some (Some ([2], [4])); Some (Some ([2; 0], [4; 5])); Some (Some ([2; 0; 0], [4; 5; 6])); Some None; None].
Proof. eexists; eexists; split; [reflexivity|vm_compute; eexists; split; reflexivity]. Qed.
Example C54_each_inorder_ex : exists s s', coll_attach (coll_new shy_btrees : coll (btree nat) (in_iter (btree nat) nat)) = Ok s /\
  exists l, calls (uinc_each_next shy_gvcb) 6 s 60 = Ok (l, s') /\
  map told_short l = [Some None; Some None; Some (Some ([1], [1])); Some (Some ([1; 1], [1; 2])); Some (Some ([2], [3])); None].
Proof. eexists; eexists; split; [reflexivity|vm_compute; eexists; split; reflexivity]. Qed.

(** ** Where nothing panics, these are the iterators of the other files. *)
Theorem C54_each_no_panic : forall Nd V (g : Nd -> V * list Nd) (gb : Nd -> V * (option Nd * option Nd)) fuel,
  let u := fun n => Some (g n) in let ub := fun n => Some (gb n) in
  let went {S A} (m : Res (option A * S)) := '(o, s) <- m ;; Ok (option_map Got o, s) in
  (forall s, ubfs_each_next u fuel s = went (bfs_each_next g fuel s)) /\
  (forall s, upre_each_next u fuel s = went (pre_each_next g fuel s)) /\
  (forall s, upost_each_next u fuel s = went (post_each_next g fuel s)) /\
  (forall s, uin_each_next ub fuel s = went (in_each_next gb fuel s)) /\
  (forall s, ubfsc_each_next u fuel s = went (bfsc_each_next g fuel s)) /\
  (forall s, uprec_each_next u fuel s = went (prec_each_next g fuel s)) /\
  (forall s, upostc_each_next u fuel s = went (postc_each_next g fuel s)) /\
  (forall s, uinc_each_next ub fuel s = went (inc_each_next gb fuel s)).
Proof.
  intros Nd V g gb fuel u ub went.
  assert (E : forall S A (m : Res (option A * S)), went _ _ m = (x <- m ;; Ok (ran_ok x))) by (intros S A [[? ?]| | |]; reflexivity).
  repeat apply conj; intros; rewrite ?E.
  - apply coll_total; intros; apply ubfs_total. - apply coll_total; intros; apply upre_total. - apply coll_total; intros; apply upost_total.
  - apply coll_total; intros; apply uin_total.
  - apply collc_total; [intros t p; unfold ubfsc_start, bfsc_start, u; destruct (g t); reflexivity|intros; apply ubfsc_total].
  - apply collc_total; [reflexivity|intros; apply uprec_total].
  - apply collc_total; [reflexivity|intros; apply upostc_total].
  - apply collc_total; [reflexivity|intros; apply uinc_total].
Qed.
Print Assumptions C54_each_no_panic.
