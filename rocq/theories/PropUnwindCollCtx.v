(** * Property C54 over collections: the contexts of binary trees and the contexts without children.

    As PropUnwindColl.v; the iterators are at the end of ModelUnwindColl.v. *)
From Verif Require Import Prelim PrelimFacts Spec SpecFacts SpecObs ModelNode NodeFacts ModelBfs ModelPre ModelPost ModelIn ModelColl ModelUnwind ModelUnwindCtx ModelUnwindColl SpecUnwind.
From Verif Require Import Slots ProofsColl ProofsUnwind ProofsUnwindIn ProofsUnwindUntil ProofsUnwindTotal ProofsUnwindCtx ProofsUnwindColl ProofsUnwindCollCtx PropUnwind PropUnwindColl.

(** ** Inorder, owned: everything comes, as for one tree. *)
Theorem C54_each_inorder_context_owned : forall Nd V (gvcb : Nd -> option (V * (option Nd * option Nd))) bt, fnode_btree gvcb bt ->
  forall trees, small_collection trees ->
  exists s, coll_attach (coll_new trees : coll Nd (in_iter Nd V)) = Ok s /\
    yields (uinco_each_next gvcb) s
      (each (fun i n => map (outcome_map no_children) (map (fun p => seen_context gvcb (in_tree i p)) (inorder (bpositions (bt n))))) trees).
Proof. intros Nd V gvcb bt H trees Hc; eexists; split; [reflexivity|exact (uinco_each gvcb bt H trees Hc)]. Qed.
Print Assumptions C54_each_inorder_context_owned.

(** ** The others are right up to the first panic, that panic included. *)
Theorem C54_each_until_panic_context_binary : forall Nd V (gvcb : Nd -> option (V * (option Nd * option Nd))) bt, fnode_btree gvcb bt ->
  forall trees, small_collection trees ->
  let told L i n := map (fun p => seen_context gvcb (in_tree i p)) (L (flat (bpositions (bt n)))) in
  (exists s, coll_attach (coll_new trees : coll Nd (bfs_iter Nd)) = Ok s /\ yields_until_panic (ubfscb_each_next gvcb) s (each (told bfs) trees)) /\
  (exists s, coll_attach (coll_new trees : coll Nd (pre_iter Nd)) = Ok s /\ yields_until_panic (uprecb_each_next gvcb) s (each (told preorder) trees)) /\
  (exists s, coll_attach (coll_new trees : coll Nd (post_iter Nd V)) = Ok s /\ yields_until_panic (upostcb_each_next gvcb) s (each (told postorder) trees)) /\
  (exists s, coll_attach (coll_new trees : coll Nd (post_iter Nd V)) = Ok s /\
     yields_until_panic (upostcob_each_next gvcb) s (each (fun i n => map (outcome_map no_children) (told postorder i n)) trees)).
Proof.
  intros Nd V gvcb bt H trees Hc told; repeat split; eexists; (split; [reflexivity|]);
    [exact (ubfscb_each gvcb bt H trees Hc)|exact (uprecb_each gvcb bt H trees Hc)|exact (upostcb_each gvcb bt H trees Hc)|exact (upostcob_each gvcb bt H trees Hc)].
Qed.
Print Assumptions C54_each_until_panic_context_binary.

Theorem C54_each_until_panic_context_owned : forall Nd V (gvc : Nd -> option (V * list Nd)) nt, fnode_tree gvc nt ->
  forall trees, small_collection trees -> Forall (fun n => small_fnodes gvc (nt n)) trees ->
  exists s, coll_attach (coll_new trees : coll Nd (post_iter Nd V)) = Ok s /\
    yields_until_panic (upostco_each_next gvc) s
      (each (fun i n => map (outcome_map no_children) (map (fun p => seen_context gvc (in_tree i p)) (postorder (positions (nt n))))) trees).
Proof. intros Nd V gvc nt H trees Hc Hs; eexists; split; [reflexivity|exact (upostco_each gvc nt H trees Hs Hc)]. Qed.
Print Assumptions C54_each_until_panic_context_owned.

(** ** If only roots panic, they too give everything, with the right indices. *)
Theorem C54_each_root_panic_context_binary : forall Nd V (gvcb : Nd -> option (V * (option Nd * option Nd))) bt, fnode_btree gvcb bt ->
  forall trees, small_collection trees ->
  Forall (fun n => gvcb n = None \/ forall m, In m (preorder (flat (bt n))) -> gvcb m <> None) trees ->
  let told L i n := map (fun p => seen_context gvcb (in_tree i p)) (L (flat (bpositions (bt n)))) in
  (exists s, coll_attach (coll_new trees : coll Nd (bfs_iter Nd)) = Ok s /\ yields (ubfscb_each_next gvcb) s (each (told bfs) trees)) /\
  (exists s, coll_attach (coll_new trees : coll Nd (pre_iter Nd)) = Ok s /\ yields (uprecb_each_next gvcb) s (each (told preorder) trees)) /\
  (exists s, coll_attach (coll_new trees : coll Nd (post_iter Nd V)) = Ok s /\ yields (upostcb_each_next gvcb) s (each (told postorder) trees)) /\
  (exists s, coll_attach (coll_new trees : coll Nd (post_iter Nd V)) = Ok s /\
     yields (upostcob_each_next gvcb) s (each (fun i n => map (outcome_map no_children) (told postorder i n)) trees)).
Proof.
  intros Nd V gvcb bt H trees Hc Hr told; repeat split; eexists; (split; [reflexivity|]);
    [exact (ubfscb_each_roots gvcb bt H trees Hc Hr)|exact (uprecb_each_roots gvcb bt H trees Hc Hr)
    |exact (upostcb_each_roots gvcb bt H trees Hc Hr)|exact (upostcob_each_roots gvcb bt H trees Hc Hr)].
Qed.
Print Assumptions C54_each_root_panic_context_binary.

Theorem C54_each_root_panic_context_owned : forall Nd V (gvc : Nd -> option (V * list Nd)) nt, fnode_tree gvc nt ->
  forall trees, small_collection trees -> Forall (fun n => small_fnodes gvc (nt n)) trees ->
  Forall (fun n => gvc n = None \/ forall m, In m (preorder (nt n)) -> gvc m <> None) trees ->
  exists s, coll_attach (coll_new trees : coll Nd (post_iter Nd V)) = Ok s /\
    yields (upostco_each_next gvc) s
      (each (fun i n => map (outcome_map no_children) (map (fun p => seen_context gvc (in_tree i p)) (postorder (positions (nt n))))) trees).
Proof. intros Nd V gvc nt H trees Hc Hs Hr; eexists; split; [reflexivity|exact (upostco_each_roots gvc nt H trees Hs Hc Hr)]. Qed.
Print Assumptions C54_each_root_panic_context_owned.

(** ** Cases that meet the hypotheses: [shy_trees_met] and [shy_btrees] of PropUnwindColl.v, and a collection in which only roots panic. *)
Definition shy_roots : list (btree nat) :=
  [BNode 1 (Some (BNode 2 None None)) (Some (BNode 3 None None)); BNode 0 (Some (BNode 9 None None)) None; BNode 4 None (Some (BNode 5 None None))].
Example shy_roots_met : small_collection shy_roots /\
  Forall (fun n => shy_gvcb n = None \/ forall m, In m (preorder (flat (shy_bt n))) -> shy_gvcb m <> None) shy_roots.
Proof.
  split; [unfold small_collection; vm_compute; discriminate|].
  assert (Hq : forall n, forallb (fun m => match shy_gvcb m with Some _ => true | None => false end) (preorder (flat (shy_bt n))) = true ->
    forall m, In m (preorder (flat (shy_bt n))) -> shy_gvcb m <> None)
    by (intros n H m Hm E; rewrite forallb_forall in H; specialize (H m Hm); rewrite E in H; discriminate H).
  apply Forall_cons; [right; apply Hq; reflexivity|]; apply Forall_cons; [left; reflexivity|].
  apply Forall_cons; [right; apply Hq; reflexivity|constructor].
Qed.
Example C54_each_root_binary_ex : exists s s', coll_attach (coll_new shy_roots : coll (btree nat) (bfs_iter (btree nat))) = Ok s /\
  exists l, calls (ubfscb_each_next shy_gvcb) 7 s 60 = Ok (l, s') /\
  map told_short l = [Some (Some ([0], [1])); Some (Some ([0; 0], [1; 2])); Some (Some ([0; 1], [1; 3])); Some None;
                      Some (Some ([2], [4])); Some (Some ([2; 1], [4; 5])); None].
Proof. eexists; eexists; split; [reflexivity|vm_compute; eexists; split; reflexivity]. Qed.
Example C54_each_root_owned_ex : exists s s', coll_attach (coll_new shy_trees : coll (tree nat) (post_iter (tree nat) nat)) = Ok s /\
  exists l, calls (upostco_each_next shy_gvc) 5 s 60 = Ok (l, s') /\
  map told_short l = [Some (Some ([0; 0], [1; 2])); Some (Some ([0; 1], [1; 3])); Some (Some ([0], [1])); Some None; Some (Some ([2; 0; 0], [4; 5; 6]))].
Proof. eexists; eexists; split; [reflexivity|vm_compute; eexists; split; reflexivity]. Qed.
Example C54_each_inorder_owned_ex : exists s s', coll_attach (coll_new shy_btrees : coll (btree nat) (in_iter (btree nat) nat)) = Ok s /\
  exists l, calls (uinco_each_next shy_gvcb) 6 s 60 = Ok (l, s') /\
  map told_short l = [Some None; Some None; Some (Some ([1], [1])); Some (Some ([1; 1], [1; 2])); Some (Some ([2], [3])); None].
Proof. eexists; eexists; split; [reflexivity|vm_compute; eexists; split; reflexivity]. Qed.

(** ** Where nothing panics, these are the iterators of the other files. *)
Theorem C54_each_no_panic_context : forall Nd V (g : Nd -> V * list Nd) (gb : Nd -> V * (option Nd * option Nd)) fuel,
  let u := fun n => Some (g n) in let ub := fun n => Some (gb n) in
  let went {S A} (m : Res (option A * S)) := '(o, s) <- m ;; Ok (option_map Got o, s) in
  (forall s, ubfscb_each_next ub fuel s = went (bfscb_each_next gb fuel s)) /\
  (forall s, uprecb_each_next ub fuel s = went (precb_each_next gb fuel s)) /\
  (forall s, upostcb_each_next ub fuel s = went (postcb_each_next gb fuel s)) /\
  (forall s, upostco_each_next u fuel s = went (postco_each_next g fuel s)) /\
  (forall s, upostcob_each_next ub fuel s = went (postcob_each_next gb fuel s)) /\
  (forall s, uinco_each_next ub fuel s = went (inco_each_next gb fuel s)).
Proof.
  intros Nd V g gb fuel u ub went.
  assert (E : forall S A (m : Res (option A * S)), went _ _ m = (x <- m ;; Ok (ran_ok x))) by (intros S A [[? ?]| | |]; reflexivity).
  repeat apply conj; intros; rewrite ?E.
  - apply collc_total; [intros t p; unfold ubfscb_start, bfsc_start, ub; destruct (gb t); reflexivity|intros; apply ubfscb_total].
  - apply collc_total; [reflexivity|intros; apply uprecb_total].
  - apply collc_total; [reflexivity|intros; apply upostcb_total].
  - apply collc_total; [reflexivity|intros; apply upostco_total].
  - apply collc_total; [reflexivity|intros; apply upostcob_total].
  - apply collc_total; [reflexivity|intros; apply uinco_total].
Qed.
Print Assumptions C54_each_no_panic_context.
