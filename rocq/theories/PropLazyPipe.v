(** * C55: what a pipeline leaves out is never made

    A node gives a value and a container of children ([gv]); the container gives an iterator ([into_iter]) that is asked for one
    child at a time ([poll]).  Nothing is assumed about these: the tree may have no bottom, and a node may have endlessly many
    children.  [explored] (SpecExplore.v) is a pass in preorder over such a tree that comes to an end: children are asked for
    only below nodes that the stages keep and let through.  [seen] is the list of the nodes visited.

    In each theorem [lpt_log] is the record of the calls of [get_value_and_children] (ModelLazyPipe.v), last call first, and
    [closures] reads off the final states of the stages' closures. *)
From Verif Require Import Prelim PrelimFacts Spec SpecFacts SpecObs SpecPipe SpecLazy SpecExplore ModelNode ModelPre ModelPipe ModelMapPath ModelLazyPipe ProofsLazyPipe.

Section C55.
  Context {Nd V C It : Type}.
  Variable gv : Nd -> V * C.
  Variable into_iter : C -> It.
  Variable poll : It -> option Nd * It.
  Local Notation explored := (explored gv into_iter poll).
  Local Notation pipeline n c := (tree_chain (lazy_pipeline gv into_iter poll n) c).
  Local Notation closures_of n c s := (closures tree_depth [] (lazy_pipeline gv into_iter poll n) c s).
  Local Notation asked n c s := (rev (lpt_log (chain_first tree_depth [] (lazy_pipeline gv into_iter poll n) c s))).

  (** C55.  [collect_tree] after any chain of stages: if the pass comes to an end, so does the call, with the tree of what the
      pass keeps.  [get_value_and_children] is called on the visited nodes, once each and in preorder, and on no other node. *)
  Theorem C55_collect : forall A (c : chain V A) n gs seen o, true_paths c = true ->
    (has_prune c = true -> (2 * N.of_nat (length seen) <= usize_max)%N) ->
    explored (visit_at gv c) (clos_init c) [] n gs seen o ->
    exists s, collect_tree (pipeline n c) ⇓ Ok (o, s) /\ closures_of n c s = gs /\ asked n c s = seen.
  Proof. intros A c n gs seen o Ht Hb He; exact (lazy_collect gv into_iter poll c n gs seen o He Ht Hb). Qed.

  (** C55.  [fold_tree] in place of [collect_tree]. *)
  Theorem C55_fold : forall A (c : chain V A) n gs seen o, true_paths c = true ->
    (has_prune c = true -> (2 * N.of_nat (length seen) <= usize_max)%N) ->
    explored (visit_at gv c) (clos_init c) [] n gs seen o ->
    forall G O (f : G -> list O -> A -> G * O) g,
    exists s, fold_tree (pipeline n c) f g ⇓ Ok (option_map (fun t => snd (fold_up f g t)) o, match o with Some t => fst (fold_up f g t) | None => g end, s) /\
      closures_of n c s = gs /\ asked n c s = seen.
  Proof. intros A c n gs seen o Ht Hb He G O f g; exact (lazy_fold gv into_iter poll c f g n gs seen o He Ht Hb). Qed.

  (** C55.  [fold_path]: the paths are those in the tree that the nodes come from (but see C38 for what comes after a [prune]). *)
  Theorem C55_fold_path : forall A (c : chain V A) n gs seen o, has_prune c = false -> (2 * N.of_nat (length seen) <= usize_max)%N ->
    explored (with_path (visit_at gv c)) (clos_init c) [] n gs seen o ->
    forall G O (f : G -> list O -> list N -> A -> G * O) g,
    let f' := fun g os (ap : A * list nat) => f g os (map N.of_nat (snd ap)) (fst ap) in
    exists s, fold_path (pipeline n c) f g ⇓ Ok (option_map (fun t => snd (fold_up f' g t)) o, match o with Some t => fst (fold_up f' g t) | None => g end, s) /\
      closures_of n c s = gs /\ asked n c s = seen.
  Proof. intros A c n gs seen o Hn Hb He G O f g; exact (lazy_fold_path gv into_iter poll c f g n gs seen o He Hn Hb). Qed.

  (** C55.  [prune_depth d]: the tree may go on below depth [d] without end, and the nodes at depth [d] may have endlessly
      many children.  The nodes up to depth [d] are asked once each, the others never. *)
  Theorem C55_prune_depth : forall d n t, up_to gv into_iter poll d n t ->
    exists s, collect_tree (pipeline n (c_prune_depth c_start (N.of_nat d))) ⇓ Ok (Some (tree_map (nval gv) t), s) /\
      asked n (c_prune_depth c_start (N.of_nat d)) s = preorder t.
  Proof.
    intros d n t H; destruct (C55_collect V (c_prune_depth c_start (N.of_nat d)) n tt (preorder t) (Some (tree_map (nval gv) t)) eq_refl ltac:(discriminate)
      (upto_explored gv into_iter poll d (N.of_nat d) n t H [] eq_refl)) as (s & E1 & _ & E2); eauto.
  Qed.

  (** A tree is explored in one way at most. *)
  Theorem C55_one_pass : forall G B (visit : G -> list nat -> Nd -> G * outcome B) g p n g1 seen1 o1 g2 seen2 o2,
    explored visit g p n g1 seen1 o1 -> explored visit g p n g2 seen2 o2 -> g1 = g2 /\ seen1 = seen2 /\ o1 = o2.
  Proof.
    intros G B visit g p n g1 seen1 o1 g2 seen2 o2 H1 H2.
    injection (proj1 (explored_det gv into_iter poll visit) _ _ _ _ _ _ H2 _ _ _ H1) as -> -> ->; auto.
  Qed.

  (** On a finite tree the pass is [walk] (SpecPipe.v), in terms of which C30-C36 are stated. *)
  Theorem C55_finite : forall n t, whole gv into_iter poll n t -> forall A (c : chain V A),
    exists seen, explored (visit_at gv c) (clos_init c) [] n (fst (walk (at_node (nval gv) c) (clos_init c) (positions t))) seen
      (snd (walk (at_node (nval gv) c) (clos_init c) (positions t))) /\ length seen <= length (preorder t).
  Proof. intros n t H A c; exact (proj1 (whole_explored gv into_iter poll c) n t H (clos_init c) [] []). Qed.
End C55.

Section C55_binary.
  Context {Nd V : Type}.
  Variable gvcb : Nd -> V * (option Nd * option Nd).
  Local Notation explored := (bexplored gvcb).
  Local Notation pipeline n c := (btree_chain (lazy_pipeline_binary gvcb n) c).
  Local Notation closures_of n c s := (closures_binary tree_depth (lazy_pipeline_binary gvcb n) c s).
  Local Notation asked n c s := (rev (lpt_log (chain_first_binary tree_depth (lazy_pipeline_binary gvcb n) c s))).

  Theorem C55_collect_binary : forall A (c : chain V A) n gs seen o, explored (visit_at gvcb c) (clos_init c) [] n gs seen o ->
    exists s, bcollect_tree (pipeline n c) ⇓ Ok (o, s) /\ closures_of n c s = gs /\ asked n c s = seen.
  Proof. intros A c n gs seen o He; exact (blazy_collect gvcb c n gs seen o He). Qed.

  Theorem C55_fold_binary : forall A (c : chain V A) n gs seen o, explored (visit_at gvcb c) (clos_init c) [] n gs seen o ->
    forall G O (f : G -> option O * option O -> A -> G * O) g,
    exists s, bfold_tree (pipeline n c) f g ⇓ Ok (option_map (fun t => snd (bfold_up f g t)) o, match o with Some t => fst (bfold_up f g t) | None => g end, s) /\
      closures_of n c s = gs /\ asked n c s = seen.
  Proof. intros A c n gs seen o He G O f g; exact (blazy_fold gvcb c f g n gs seen o He). Qed.

  Theorem C55_fold_path_binary : forall A (c : chain V A) n gs seen o, explored (with_path (visit_at gvcb c)) (clos_init c) [] n gs seen o ->
    forall G O (f : G -> option O * option O -> list N -> A -> G * O) g,
    let f' := fun g os (ap : A * list nat) => f g os (map N.of_nat (snd ap)) (fst ap) in
    exists s, bfold_path (pipeline n c) f g ⇓ Ok (option_map (fun t => snd (bfold_up f' g t)) o, match o with Some t => fst (bfold_up f' g t) | None => g end, s) /\
      closures_of n c s = gs /\ asked n c s = seen.
  Proof. intros A c n gs seen o He G O f g; exact (blazy_fold_path gvcb c f g n gs seen o He). Qed.

  (** No assumption at all: two children at most, so the nodes up to depth [d] are finitely many ([bcut], SpecLazy.v). *)
  Theorem C55_prune_depth_binary : forall d n,
    exists s, bcollect_tree (pipeline n (c_prune_depth c_start (N.of_nat d))) ⇓ Ok (Some (btree_map (nval gvcb) (bcut gvcb d n)), s) /\
      asked n (c_prune_depth c_start (N.of_nat d)) s = preorder (flat (bcut gvcb d n)).
  Proof.
    intros d n; destruct (C55_collect_binary V (c_prune_depth c_start (N.of_nat d)) n tt _ _ (bcut_explored gvcb (N.of_nat d) d n [] eq_refl)) as (s & E1 & _ & E2); eauto.
  Qed.

  Theorem C55_one_pass_binary : forall G B (visit : G -> list nat -> Nd -> G * outcome B) g p n g1 seen1 o1 g2 seen2 o2,
    explored visit g p n g1 seen1 o1 -> explored visit g p n g2 seen2 o2 -> g1 = g2 /\ seen1 = seen2 /\ o1 = o2.
  Proof.
    intros G B visit g p n g1 seen1 o1 g2 seen2 o2 H1 H2.
    injection (proj1 (bexplored_det gvcb visit) _ _ _ _ _ _ H2 _ _ _ H1) as -> -> ->; auto.
  Qed.

  Theorem C55_finite_binary : forall n t, bwhole gvcb n t -> forall A (c : chain V A),
    exists seen, explored (visit_at gvcb c) (clos_init c) [] n (fst (bwalk (at_node (nval gvcb) c) (clos_init c) (bpositions t))) seen
      (snd (bwalk (at_node (nval gvcb) c) (clos_init c) (bpositions t))).
  Proof. intros n t H A c; exact (proj1 (bwhole_explored gvcb c) n t H (clos_init c) [] []). Qed.
End C55_binary.
Print Assumptions C55_collect.
Print Assumptions C55_fold.
Print Assumptions C55_fold_path.
Print Assumptions C55_prune_depth.
Print Assumptions C55_one_pass.
Print Assumptions C55_finite.
Print Assumptions C55_collect_binary.
Print Assumptions C55_fold_binary.
Print Assumptions C55_fold_path_binary.
Print Assumptions C55_prune_depth_binary.
Print Assumptions C55_one_pass_binary.
Print Assumptions C55_finite_binary.

(** ** Cases *)

(** A tree without bottom: below [k] are [2 k] and [2 k + 1]; below a multiple of five, all numbers from itself on, endlessly.
    The value of [k] is [k]; the container is the node itself. *)
Inductive ex_it := Pair (k : nat) | One (k : nat) | Done | From (k : nat).
Definition ex_into (k : nat) : ex_it := if k mod 5 =? 0 then From k else Pair k.
Definition ex_poll (it : ex_it) : option nat * ex_it :=
  match it with
  | Pair k => (Some (2 * k), One k)
  | One k => (Some (2 * k + 1), Done)
  | Done => (None, Done)
  | From k => (Some k, From (S k))
  end.
Definition ex_gv (k : nat) : nat * nat := (k, k).

(** Count the nodes, drop those above 8, prune 5 by its path, stop at depth 3: two of the nodes that are left have no end. *)
Definition ex_c : chain nat nat :=
  c_prune (c_prune_path (c_prune_depth (c_map c_start 0 (fun g v => (g + 1, v))) 3) tt
    (fun g p v => (g, match p with [1%N; 0%N; 0%N] => true | _ => false end))) [] (fun g v => (v :: g, (8 <? v) || (v =? 5))).
Definition ex_seen := [1; 2; 4; 8; 9; 5; 3; 6; 12; 13; 7; 14; 15].

(** Follow a pass that goes on below nodes with two children only. *)
Ltac ex_two := eapply polled_more; [reflexivity|eapply polled_more; [reflexivity|eapply polled_end; reflexivity]].
Ltac ex_go := match goal with |- explored _ _ _ ?vi ?g ?p ?n _ _ _ =>
  let r := eval vm_compute in (vi g p n) in
  lazymatch r with
  | (?g1, Drop) => apply (ex_drop _ _ _ _ _ _ _ g1); vm_compute; reflexivity
  | (?g1, Keep ?b false) => apply (ex_cut _ _ _ _ _ _ _ g1 b); vm_compute; reflexivity
  | (?g1, Keep ?b true) => eapply (ex_down _ _ _ _ _ _ _ g1 b); [vm_compute; reflexivity|ex_two|eapply ek_cons; [ex_go|eapply ek_cons; [ex_go|apply ek_nil]]]
  end end.
Ltac ex_pass := match goal with |- explored ?gv ?ii ?po ?vi ?g ?p ?n ?g' ?se ?o =>
  let H := fresh in assert (H : exists g1 s1 o1, explored gv ii po vi g p n g1 s1 o1 /\ (g1, s1, o1) = (g', se, o))
    by (do 3 eexists; split; [ex_go|reflexivity]); destruct H as (? & ? & ? & H & E); injection E as <- <- <-; exact H end.

Example C55_ex : true_paths ex_c = true /\ (2 * N.of_nat (length ex_seen) <= usize_max)%N /\
  explored ex_gv ex_into ex_poll (visit_at ex_gv ex_c) (clos_init ex_c) [] 1 (tt, 13, tt, [15; 14; 7; 13; 6; 3; 5; 9; 8; 4; 2; 1]) ex_seen
    (Some (TNode 1 [TNode 2 [TNode 4 [TNode 8 []]]; TNode 3 [TNode 6 []; TNode 7 []]])) /\
  match collect_tree (tree_chain (lazy_pipeline ex_gv ex_into ex_poll 1) ex_c) 100 with
  | Ok (o, s) => Some (o, rev (lpt_log (chain_first tree_depth [] (lazy_pipeline ex_gv ex_into ex_poll 1) ex_c s)))
  | _ => None
  end = Some (Some (TNode 1 [TNode 2 [TNode 4 [TNode 8 []]]; TNode 3 [TNode 6 []; TNode 7 []]]), ex_seen).
Proof.
  split; [reflexivity|]; split; [vm_compute; discriminate|]; split; [|vm_compute; reflexivity].
  ex_pass.
Qed.

(** [prune_depth 1] below 2: node 5 has endlessly many children. *)
Example C55_prune_depth_ex : up_to ex_gv ex_into ex_poll 1 2 (TNode 2 [TNode 4 []; TNode 5 []]) /\
  (forall b, length (first_items ex_poll b (ex_into 5)) = b) /\
  match collect_tree (tree_chain (lazy_pipeline ex_gv ex_into ex_poll 2) (c_prune_depth c_start 1)) 100 with Ok (o, _) => Some o | _ => None end
    = Some (Some (TNode 2 [TNode 4 []; TNode 5 []])).
Proof.
  split; [|split; [|vm_compute; reflexivity]].
  - apply (up_to_S _ _ _ 0 2 [4; 5]); [ex_two|repeat constructor].
  - intros b; change (ex_into 5) with (From 5); generalize 5; induction b as [|b IH]; intros k; cbn; [reflexivity|]; rewrite IH; reflexivity.
Qed.

(** Folding with paths on what [prune_depth] leaves of an endless tree. *)
Definition ex_cp : chain nat nat := c_map (c_prune_depth c_start 2) 0 (fun g v => (g + v, 10 * v)).
Example C55_fold_path_ex : has_prune ex_cp = false /\
  explored ex_gv ex_into ex_poll (with_path (visit_at ex_gv ex_cp)) (clos_init ex_cp) [] 1 (tt, 28) [1; 2; 4; 5; 3; 6; 7]
    (Some (TNode (10, []) [TNode (20, [0]) [TNode (40, [0; 0]) []; TNode (50, [0; 1]) []]; TNode (30, [1]) [TNode (60, [1; 0]) []; TNode (70, [1; 1]) []]])).
Proof. split; [reflexivity|]; ex_pass. Qed.

(** A binary tree in which every node has two children. *)
Definition ex_gvcb (k : nat) : nat * (option nat * option nat) := (k, (Some (2 * k), Some (2 * k + 1))).
Definition ex_cb : chain nat nat := c_prune c_start 0 (fun g v => (g + 1, 4 <? v)).
Ltac bex_go := match goal with |- bexplored _ ?vi ?g ?p ?n _ _ _ =>
  let r := eval vm_compute in (vi g p n) in
  lazymatch r with
  | (?g1, Drop) => apply (bex_drop _ _ _ _ _ g1); vm_compute; reflexivity
  | (?g1, Keep ?b true) => eapply (bex_down _ _ _ _ _ g1 b); [vm_compute; reflexivity|apply bes_some; bex_go|apply bes_some; bex_go]
  end end.
Example C55_binary_ex : bexplored ex_gvcb (visit_at ex_gvcb ex_cb) (clos_init ex_cb) [] 1 (tt, 9) [1; 2; 4; 8; 9; 5; 3; 6; 7]
    (Some (BNode 1 (Some (BNode 2 (Some (BNode 4 None None)) None)) (Some (BNode 3 None None)))) /\
  match bfold_path (btree_chain (lazy_pipeline_binary ex_gvcb 1) ex_cb) (fun g os p v => (g ++ [(p, v)], v + match fst os with Some a => a | None => 0 end)) [] 100 with
  | Ok (o, g, s) => Some (o, g, rev (lpt_log (chain_first_binary tree_depth (lazy_pipeline_binary ex_gvcb 1) ex_cb s)))
  | _ => None
  end = Some (Some 7, [([0%N; 0%N], 4); ([0%N], 2); ([1%N], 3); ([], 1)], [1; 2; 4; 8; 9; 5; 3; 6; 7]).
Proof.
  split; [|vm_compute; reflexivity].
  assert (H : exists g1 s1 o1, bexplored ex_gvcb (visit_at ex_gvcb ex_cb) (clos_init ex_cb) [] 1 g1 s1 o1 /\
    (g1, s1, o1) = ((tt, 9), [1; 2; 4; 8; 9; 5; 3; 6; 7], Some (BNode 1 (Some (BNode 2 (Some (BNode 4 None None)) None)) (Some (BNode 3 None None)))))
    by (do 3 eexists; split; [bex_go|reflexivity]).
  destruct H as (? & ? & ? & H & E); injection E as <- <- <-; exact H.
Qed.
