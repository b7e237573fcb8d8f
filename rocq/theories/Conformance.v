(** * The crate's own test suite, run on the model

    Every assertion of /repo/tests/src/*.rs, evaluated in the model.  These are tests of the model, not proofs of properties: they show
    that the transcription of the code gives the results that the authors of the crate expect.
    One model stands for the owned, [_ref] and [_mut] variants wherever their code is the same, so one example here stands for
    the three assertions of a test. *)
From Verif Require Import Prelim Spec SpecPipe ModelNode ModelBfs ModelPre ModelPost ModelIn ModelLeaves ModelColl ModelPipe ModelPipeColl ModelMut.

(** [while let Some(value) = iter.next()]: the values until the first [None], and the iterator after it. *)
Fixpoint drain {S A} (n : nat) (next : nat -> S -> Res (option A * S)) (s : S) : Res (list A * S) :=
  match n with
  | 0 => OutOfFuel
  | S n' =>
      '(o, s') <- next 200 s ;;
      match o with None => Ok ([], s') | Some a => '(l, s'') <- drain n' next s' ;; Ok (a :: l, s'') end
  end.
Definition all {S A} (next : nat -> S -> Res (option A * S)) (s : S) : Res (list A) := '(l, _) <- drain 100 next s ;; Ok l.
(** The same for an iterator whose creation may panic. *)
Definition all_of {S A} (next : nat -> S -> Res (option A * S)) (s : Res S) : Res (list A) := s <- s ;; all next s.

(** ** tests/src/lib.rs *)
Definition t : tree nat :=   (* create_tree_for_testing, lib.rs 90-132 *)
  TNode 0 [TNode 1 [TNode 3 []; TNode 4 []];
           TNode 2 [TNode 5 []; TNode 6 [TNode 7 [TNode 8 [TNode 9 [TNode 10 []]]]]]].
Definition bleaf (v : nat) : btree nat := BNode v None None.
Definition bt : btree nat := (* create_binary_tree_for_testing, lib.rs 134-180 *)
  BNode 0 (Some (BNode 1 (Some (bleaf 3)) (Some (bleaf 4))))
          (Some (BNode 2 (Some (bleaf 5))
                         (Some (BNode 6 (Some (BNode 7 None (Some (BNode 8 (Some (BNode 9 None (Some (bleaf 10)))) None)))) None)))).
Definition path_of (v : nat) : list N :=   (* get_value_to_path_map, lib.rs 24-38 *)
  nth v [[]; [0]; [1]; [0; 0]; [0; 1]; [1; 0]; [1; 1]; [1; 1; 0]; [1; 1; 0; 0]; [1; 1; 0; 0; 0]; [1; 1; 0; 0; 0; 0]]%N [].
Definition bpath_of (v : nat) : list N :=  (* get_value_to_path_map_binary, lib.rs 41-55 *)
  nth v [[]; [0]; [1]; [0; 0]; [0; 1]; [1; 0]; [1; 1]; [1; 1; 0]; [1; 1; 0; 1]; [1; 1; 0; 1; 0]; [1; 1; 0; 1; 0; 1]]%N [].
Definition above (v : nat) : list nat :=   (* get_expected_metadata_for_value, lib.rs 69-84 *)
  nth v [[0]; [0; 1]; [0; 2]; [0; 1; 3]; [0; 1; 4]; [0; 2; 5]; [0; 2; 6]; [0; 2; 6; 7]; [0; 2; 6; 7; 8]; [0; 2; 6; 7; 8; 9]; [0; 2; 6; 7; 8; 9; 10]] [].

Definition g := @tree_gvc nat.
Definition gb := @btree_gvcb nat.
Definition gf := binary_gvc gb.
Definition seen {C} (c : tree_context nat C) := (c_path c, c_ancestors c).
Definition seens {C} (r : Res (list (tree_context nat C))) := l <- r ;; Ok (map seen l).
Definition expect (path_of : nat -> list N) (l : list nat) := Ok (map (fun v => (path_of v, above v)) l).

(** ** tests/src/bfs.rs *)
Definition order_bfs := [0; 1; 2; 3; 4; 5; 6; 7; 8; 9; 10].
Example bfs_has_correct_order : all (bfs_next g) (bfs_new t) = Ok order_bfs.
Proof. vm_compute; reflexivity. Qed.
Example bfs_attach_ancestors_works : all_of (bfsa_next g) (bfs_attach_ancestors g (bfs_new t)) = Ok (map above order_bfs).
Proof. vm_compute; reflexivity. Qed.
Example bfs_attach_context_works : seens (all_of (bfsc_next g) (bfs_attach_context g (bfs_new t))) = expect path_of order_bfs.
Proof. vm_compute; reflexivity. Qed.
Example bfs_binary_has_correct_order : all (bfs_next gf) (bfs_new bt) = Ok order_bfs.
Proof. vm_compute; reflexivity. Qed.
Example bfs_binary_attach_ancestors_works : all_of (bfsa_next gf) (bfs_attach_ancestors gf (bfs_new bt)) = Ok (map above order_bfs).
Proof. vm_compute; reflexivity. Qed.
Example bfs_binary_attach_context_works :
  seens (all_of (bfscb_next gb pair_iter) (bfs_attach_context_binary gb (bfs_new bt))) = expect bpath_of order_bfs.
Proof. vm_compute; reflexivity. Qed.

(** ** tests/src/dfs_preorder.rs *)
Definition order_pre := [0; 1; 3; 4; 2; 5; 6; 7; 8; 9; 10].
Example dfs_preorder_has_correct_order : all (pre_next g) (pre_new t) = Ok order_pre.
Proof. vm_compute; reflexivity. Qed.
Example dfs_preorder_attach_ancestors_works : all_of (prea_next g) (pre_attach_ancestors (pre_new t)) = Ok (map above order_pre).
Proof. vm_compute; reflexivity. Qed.
Example dfs_preorder_attach_context_works : seens (all_of (prec_next g) (pre_attach_context (pre_new t))) = expect path_of order_pre.
Proof. vm_compute; reflexivity. Qed.
Example dfs_preorder_binary_has_correct_order : all (pre_next gf) (pre_new bt) = Ok order_pre.
Proof. vm_compute; reflexivity. Qed.
Example dfs_preorder_binary_attach_ancestors_works : all_of (prea_next gf) (pre_attach_ancestors (pre_new bt)) = Ok (map above order_pre).
Proof. vm_compute; reflexivity. Qed.
Example dfs_preorder_binary_attach_context_works :
  seens (all_of (precb_next gb pair_iter) (pre_attach_context (pre_new bt))) = expect bpath_of order_pre.
Proof. vm_compute; reflexivity. Qed.

(** ** tests/src/dfs_postorder.rs *)
Definition order_post := [3; 4; 1; 5; 10; 9; 8; 7; 6; 2; 0].
Example dfs_postorder_has_correct_order : all (post_next g) (post_new t) = Ok order_post.
Proof. vm_compute; reflexivity. Qed.
Example dfs_postorder_attach_ancestors_works : all_of (posta_next g) (post_attach_ancestors (post_new t)) = Ok (map above order_post).
Proof. vm_compute; reflexivity. Qed.
Example dfs_postorder_attach_context_works : seens (all_of (postc_next g) (post_attach_context (post_new t))) = expect path_of order_post.
Proof. vm_compute; reflexivity. Qed.
Example dfs_postorder_attach_context_works_owned :
  seens (all_of (postco_next g) (post_attach_context_owned (post_new t))) = expect path_of order_post.
Proof. vm_compute; reflexivity. Qed.
Example dfs_postorder_binary_has_correct_order : all (post_next gf) (post_new bt) = Ok order_post.
Proof. vm_compute; reflexivity. Qed.
Example dfs_postorder_binary_attach_ancestors_works : all_of (posta_next gf) (post_attach_ancestors (post_new bt)) = Ok (map above order_post).
Proof. vm_compute; reflexivity. Qed.
Example dfs_postorder_binary_attach_context_works :
  seens (all_of (postcb_next gb pair_iter) (post_attach_context (post_new bt))) = expect bpath_of order_post.
Proof. vm_compute; reflexivity. Qed.
Example dfs_postorder_binary_attach_context_works_owned :
  seens (all_of (postcob_next gb pair_iter) (post_attach_context_owned (post_new bt))) = expect bpath_of order_post.
Proof. vm_compute; reflexivity. Qed.

(** ** tests/src/dfs_inorder.rs *)
Definition order_in := [3; 1; 4; 0; 5; 2; 7; 9; 10; 8; 6].
Example dfs_inorder_has_correct_order : all (in_next gb) (in_new bt) = Ok order_in.
Proof. vm_compute; reflexivity. Qed.
Example dfs_inorder_attach_ancestors_works : all_of (ina_next gb) (in_attach_ancestors (in_new bt)) = Ok (map above order_in).
Proof. vm_compute; reflexivity. Qed.
Example dfs_inorder_attach_context_works : seens (all_of (inc_next gb) (in_attach_context (in_new bt))) = expect bpath_of order_in.
Proof. vm_compute; reflexivity. Qed.
Example dfs_inorder_attach_context_works_owned :
  seens (all_of (inco_next gb) (in_attach_context_owned (in_new bt))) = expect bpath_of order_in.
Proof. vm_compute; reflexivity. Qed.

(** ** tests/src/get_at_path.rs *)
Example tree_at_path : map (fun p => option_map (@root nat) (at_path g t p))
    [[]; [0]; [1]; [2]; [0; 0]; [0; 1]; [0; 2]; [1; 0]; [1; 1]; [1; 2]; [1; 1; 0]; [1; 1; 1]; [1; 1; 1; 0]; [1; 1; 0; 0]; [1; 1; 0; 1];
     [1; 1; 0; 0; 0]; [1; 1; 0; 0; 1]; [1; 1; 0; 0; 0; 0]; [1; 1; 0; 0; 0; 1]; [1; 1; 0; 0; 0; 0; 0]]%N
  = [Some 0; Some 1; Some 2; None; Some 3; Some 4; None; Some 5; Some 6; None; Some 7; None; None; Some 8; None;
     Some 9; None; Some 10; None; None].
Proof. vm_compute; reflexivity. Qed.
Example binary_tree_at_path : map (fun p => option_map (@broot nat) (at_path_binary gb bt p))
    [[]; [0]; [1]; [2]; [0; 0]; [0; 1]; [0; 2]; [1; 0]; [1; 1]; [1; 2]; [1; 1; 0]; [1; 1; 1]; [1; 1; 1; 0]; [1; 1; 0; 1]; [1; 1; 0; 0];
     [1; 1; 0; 1; 0]; [1; 1; 0; 1; 1]; [1; 1; 0; 1; 0; 1]; [1; 1; 0; 1; 0; 0]; [1; 1; 0; 1; 0; 1; 0]]%N
  = [Some 0; Some 1; Some 2; None; Some 3; Some 4; None; Some 5; Some 6; None; Some 7; None; None; Some 8; None;
     Some 9; None; Some 10; None; None].
Proof. vm_compute; reflexivity. Qed.

(** ** tests/src/leaves.rs.  The tests "mid traversal" call [leaves()] after the traversal reached [None]
    (their loops run to the end); nothing may then come out of order. *)
Definition order_leaves := [3; 4; 5; 10].
Definition then_all {S S' A A'} (next : nat -> S -> Res (option A * S)) (s : S) (leaves : S -> Res S') (next' : nat -> S' -> Res (option A' * S'))
  : Res (list A * list A') :=
  '(l, s) <- drain 100 next s ;; s' <- leaves s ;; l' <- all next' s' ;; Ok (l, l').

Example leaves_has_correct_order :
  all (dleaves_next g) (pre_leaves (pre_new t)) = Ok order_leaves /\ all (dleaves_next g) (post_leaves (post_new t)) = Ok order_leaves /\
  all (bleaves_next g) (bfs_leaves (bfs_new t)) = Ok order_leaves.
Proof. vm_compute; auto. Qed.
Example root_only_leaves_has_correct_order : let t := TNode 0 [] in
  all (dleaves_next g) (pre_leaves (pre_new t)) = Ok [0] /\ all (dleaves_next g) (post_leaves (post_new t)) = Ok [0] /\
  all (bleaves_next g) (bfs_leaves (bfs_new t)) = Ok [0].
Proof. vm_compute; auto. Qed.
Example binary_leaves_has_correct_order :
  all (dleaves_next gf) (pre_leaves (pre_new bt)) = Ok order_leaves /\ all_of (dleaves_next gf) (in_leaves (in_new bt)) = Ok order_leaves /\
  all (dleaves_next gf) (post_leaves (post_new bt)) = Ok order_leaves /\ all (bleaves_next gf) (bfs_leaves (bfs_new bt)) = Ok order_leaves.
Proof. vm_compute; auto. Qed.
Example binary_root_only_leaves_has_correct_order : let bt := bleaf 0 in
  all (dleaves_next gf) (pre_leaves (pre_new bt)) = Ok [0] /\ all_of (dleaves_next gf) (in_leaves (in_new bt)) = Ok [0] /\
  all (dleaves_next gf) (post_leaves (post_new bt)) = Ok [0] /\ all (bleaves_next gf) (bfs_leaves (bfs_new bt)) = Ok [0].
Proof. vm_compute; auto. Qed.
Example leaves_transformation_can_happen_mid_traversal :
  then_all (pre_next g) (pre_new t) (fun s => Ok (pre_leaves s)) (dleaves_next g) = Ok (order_pre, []) /\
  then_all (post_next g) (post_new t) (fun s => Ok (post_leaves s)) (dleaves_next g) = Ok (order_post, []) /\
  then_all (bfs_next g) (bfs_new t) (fun s => Ok (bfs_leaves s)) (bleaves_next g) = Ok (order_bfs, []).
Proof. vm_compute; auto. Qed.
Example leaves_binary_transformation_can_happen_mid_traversal :
  then_all (pre_next gf) (pre_new bt) (fun s => Ok (pre_leaves s)) (dleaves_next gf) = Ok (order_pre, []) /\
  then_all (in_next gb) (in_new bt) in_leaves (dleaves_next gf) = Ok (order_in, []) /\
  then_all (post_next gf) (post_new bt) (fun s => Ok (post_leaves s)) (dleaves_next gf) = Ok (order_post, []) /\
  then_all (bfs_next gf) (bfs_new bt) (fun s => Ok (bfs_leaves s)) (bleaves_next gf) = Ok (order_bfs, []).
Proof. vm_compute; auto. Qed.

(** ** tests/src/ancestors_leaves.rs *)
Definition order_leaves_above := [[0; 1; 3]; [0; 1; 4]; [0; 2; 5]; [0; 2; 6; 7; 8; 9; 10]].
Definition leaves_of {S S'} (m : Res S) (leaves : S -> S') : Res S' := s <- m ;; Ok (leaves s).
Example ancestors_leaves_has_correct_order :
  all_of (daleaves_next g) (leaves_of (pre_attach_ancestors (pre_new t)) prea_leaves) = Ok order_leaves_above /\
  all_of (daleaves_next g) (leaves_of (post_attach_ancestors (post_new t)) posta_leaves) = Ok order_leaves_above /\
  all_of (baleaves_next g) (leaves_of (bfs_attach_ancestors g (bfs_new t)) bfsa_leaves) = Ok order_leaves_above.
Proof. vm_compute; auto. Qed.
Example ancestors_root_only_leaves_has_correct_order : let t := TNode 0 [] in
  all_of (daleaves_next g) (leaves_of (pre_attach_ancestors (pre_new t)) prea_leaves) = Ok [[0]] /\
  all_of (daleaves_next g) (leaves_of (post_attach_ancestors (post_new t)) posta_leaves) = Ok [[0]] /\
  all_of (baleaves_next g) (leaves_of (bfs_attach_ancestors g (bfs_new t)) bfsa_leaves) = Ok [[0]].
Proof. vm_compute; auto. Qed.
Example ancestors_binary_leaves_has_correct_order :
  all_of (daleaves_next gf) (leaves_of (pre_attach_ancestors (pre_new bt)) prea_leaves) = Ok order_leaves_above /\
  all_of (daleaves_next gf) (leaves_of (in_attach_ancestors (in_new bt)) ina_leaves) = Ok order_leaves_above /\
  all_of (daleaves_next gf) (leaves_of (post_attach_ancestors (post_new bt)) posta_leaves) = Ok order_leaves_above /\
  all_of (baleaves_next gf) (leaves_of (bfs_attach_ancestors gf (bfs_new bt)) bfsa_leaves) = Ok order_leaves_above.
Proof. vm_compute; auto. Qed.
Example ancestors_root_only_binary_leaves_has_correct_order : let bt := bleaf 0 in
  all_of (daleaves_next gf) (leaves_of (pre_attach_ancestors (pre_new bt)) prea_leaves) = Ok [[0]] /\
  all_of (daleaves_next gf) (leaves_of (in_attach_ancestors (in_new bt)) ina_leaves) = Ok [[0]] /\
  all_of (daleaves_next gf) (leaves_of (post_attach_ancestors (post_new bt)) posta_leaves) = Ok [[0]] /\
  all_of (baleaves_next gf) (leaves_of (bfs_attach_ancestors gf (bfs_new bt)) bfsa_leaves) = Ok [[0]].
Proof. vm_compute; auto. Qed.
Definition then_all_of {S S' A A'} (next : nat -> S -> Res (option A * S)) (m : Res S) (leaves : S -> S') (next' : nat -> S' -> Res (option A' * S'))
  : Res (list A * list A') := s <- m ;; then_all next s (fun s => Ok (leaves s)) next'.
Example ancestors_leaves_transformation_can_happen_mid_traversal :
  then_all_of (prea_next g) (pre_attach_ancestors (pre_new t)) prea_leaves (daleaves_next g) = Ok (map above order_pre, []) /\
  then_all_of (posta_next g) (post_attach_ancestors (post_new t)) posta_leaves (daleaves_next g) = Ok (map above order_post, []) /\
  then_all_of (bfsa_next g) (bfs_attach_ancestors g (bfs_new t)) bfsa_leaves (baleaves_next g) = Ok (map above order_bfs, []).
Proof. vm_compute; auto. Qed.
Example ancestors_leaves_binary_transformation_can_happen_mid_traversal :
  then_all_of (prea_next gf) (pre_attach_ancestors (pre_new bt)) prea_leaves (daleaves_next gf) = Ok (map above order_pre, []) /\
  then_all_of (ina_next gb) (in_attach_ancestors (in_new bt)) ina_leaves (daleaves_next gf) = Ok (map above order_in, []) /\
  then_all_of (posta_next gf) (post_attach_ancestors (post_new bt)) posta_leaves (daleaves_next gf) = Ok (map above order_post, []) /\
  then_all_of (bfsa_next gf) (bfs_attach_ancestors gf (bfs_new bt)) bfsa_leaves (baleaves_next gf) = Ok (map above order_bfs, []).
Proof. vm_compute; auto. Qed.

(** ** tests/src/map.rs.  The closure of the tests parses the number before the underscore in "n_n"; here a value is the pair of the two numbers. *)
Definition result {A S} (m : Res (A * S)) : Res A := '(a, _) <- m ;; Ok a.
Definition result2 {A G S} (m : Res (A * G * S)) : Res A := '(a, _, _) <- m ;; Ok a.
Definition parse (u : unit) (v : nat * nat) : unit * nat := (u, fst v).
Definition s_ (n : nat) := (n, n).
Definition map_source := TNode (s_ 0) [TNode (s_ 1) [TNode (s_ 3) [TNode (s_ 5) []]; TNode (s_ 4) []]; TNode (s_ 2) []].
Definition map_expected := TNode 0 [TNode 1 [TNode 3 [TNode 5 []]; TNode 4 []]; TNode 2 []].
Example map_tree_test : result (op_map tree_gvc parse tt map_source 100) = Ok map_expected.
Proof. vm_compute; reflexivity. Qed.
Definition bleaf2 (v : nat) : btree (nat * nat) := BNode (s_ v) None None.
Definition bmap_source := BNode (s_ 0) (Some (BNode (s_ 1) (Some (BNode (s_ 3) None (Some (bleaf2 5)))) (Some (bleaf2 4)))) (Some (bleaf2 2)).
Definition bmap_expected := BNode 0 (Some (BNode 1 (Some (BNode 3 None (Some (bleaf 5)))) (Some (bleaf 4)))) (Some (bleaf 2)).
Example map_binary_tree_test : result (bop_map btree_gvcb parse tt bmap_source 100) = Ok bmap_expected.
Proof. vm_compute; reflexivity. Qed.
Definition trees_of {A} (P : pipe A) : Res (list (tree A)) := all (trees_next P) (trees_new P).
Definition btrees_of {A} (P : pipe A) : Res (list (btree A)) := all (btrees_next P) (trees_new P).
Example map_tree_collection_test : trees_of (map_each tree_gvc parse tt [map_source; map_source]) = Ok [map_expected; map_expected].
Proof. vm_compute; reflexivity. Qed.
Example map_binary_tree_collection_test : btrees_of (map_each_binary btree_gvcb parse tt [bmap_source; bmap_source]) = Ok [bmap_expected; bmap_expected].
Proof. vm_compute; reflexivity. Qed.

(** ** tests/src/fold.rs.  A failed assertion inside a closure is recorded in the closure's state. *)
Definition sum (l : list nat) : nat := fold_right Nat.add 0 l.
Definition opts (c : option nat * option nat) : list nat := flat_map opt_list (pair_iter c).
Definition addf (u : unit) (accs : list nat) (v : nat) : unit * nat := (u, sum accs + v).
Definition baddf (u : unit) (accs : option nat * option nat) (v : nat) : unit * nat := (u, sum (opts accs) + v).
Definition patheq (p q : list N) : bool := if list_eq_dec N.eq_dec p q then true else false.
Definition addp (ok : bool) (accs : list nat) (path : list N) (v : nat) : bool * nat := (ok && patheq path (path_of v), sum accs + v).
Definition baddp (ok : bool) (accs : option nat * option nat) (path : list N) (v : nat) : bool * nat :=
  (ok && patheq path (bpath_of v), sum (opts accs) + v).
Example fold_tree_test : result2 (op_fold g addf tt t 100) = Ok 55.
Proof. vm_compute; reflexivity. Qed.
Example fold_binary_tree_test : result2 (bop_fold gb baddf tt bt 100) = Ok 55.
Proof. vm_compute; reflexivity. Qed.
Example fold_trees_test : let P := into_pipeline_each g [t; t; t] in all (cfold_next P addf) (consume_new P tt) = Ok [55; 55; 55].
Proof. vm_compute; reflexivity. Qed.
Example fold_binary_trees_test : let P := into_pipeline_each_binary gb [bt; bt; bt] in all (bcfold_next P baddf) (consume_new P tt) = Ok [55; 55; 55].
Proof. vm_compute; reflexivity. Qed.
Example fold_path_tree_test : ('(r, ok, _) <- op_fold_path g addp true t 100 ;; Ok (r, ok)) = Ok (55, true).
Proof. vm_compute; reflexivity. Qed.
Example fold_path_binary_tree_test : ('(r, ok, _) <- bop_fold_path gb baddp true bt 100 ;; Ok (r, ok)) = Ok (55, true).
Proof. vm_compute; reflexivity. Qed.
(** [counters]: how often each value was seen, fold.rs 330-400. *)
Definition counted (seen : list nat) (v : nat) : N := N.of_nat (length (filter (Nat.eqb v) seen)).
Definition caddp (s : bool * list nat) (accs : list nat) (path : list N) (v : nat) : (bool * list nat) * nat :=
  ((fst s && patheq path (counted (snd s) v :: path_of v), v :: snd s), sum accs + v).
Definition bcaddp (s : bool * list nat) (accs : option nat * option nat) (path : list N) (v : nat) : (bool * list nat) * nat :=
  ((fst s && patheq path (counted (snd s) v :: bpath_of v), v :: snd s), sum (opts accs) + v).
Example fold_path_trees_test : let P := into_pipeline_each g [t; t; t] in
  ('(l, c) <- drain 100 (cfoldp_next P caddp) (consume_new P (true, [])) ;; Ok (l, fst (snd c))) = Ok ([55; 55; 55], true).
Proof. vm_compute; reflexivity. Qed.
Example fold_path_binary_trees_test : let P := into_pipeline_each_binary gb [bt; bt; bt] in
  ('(l, c) <- drain 100 (bcfoldp_next P bcaddp) (consume_new P (true, [])) ;; Ok (l, fst (snd c))) = Ok ([55; 55; 55], true).
Proof. vm_compute; reflexivity. Qed.

(** ** tests/src/prune.rs *)
Definition is (k : nat) (u : unit) (v : nat) : unit * bool := (u, v =? k).
Definition always (u : unit) (v : nat) : unit * bool := (u, true).
Definition seg_is (i : nat) (k : N) (u : unit) (path : list N) (_ : nat) : unit * bool :=
  (u, match nth_error path i with Some s => (s =? k)%N | None => false end).
Definition pruned2 := TNode 0 [TNode 1 [TNode 3 []; TNode 4 []]].
Definition pruned23 := TNode 0 [TNode 1 [TNode 4 []]].
Example prune_tree_test :
  result (op_prune g always tt t 100) = Ok None /\ result (op_prune g (is 0) tt t 100) = Ok None /\
  result (op_prune g (is 2) tt t 100) = Ok (Some pruned2) /\ result (op_prune_path g (seg_is 0 1) tt t 100) = Ok (Some pruned2) /\
  result (op_prune g (is 3) tt pruned2 100) = Ok (Some pruned23) /\ result (op_prune_path g (seg_is 1 0) tt pruned2 100) = Ok (Some pruned23).
Proof. vm_compute; auto 10. Qed.
Definition bpruned2 := BNode 0 (Some (BNode 1 (Some (bleaf 3)) (Some (bleaf 4)))) None.
Definition bpruned23 := BNode 0 (Some (BNode 1 None (Some (bleaf 4)))) None.
Example prune_binary_tree_test :
  result (bop_prune gb always tt bt 100) = Ok None /\ result (bop_prune gb (is 0) tt bt 100) = Ok None /\
  result (bop_prune gb (is 2) tt bt 100) = Ok (Some bpruned2) /\ result (bop_prune_path gb (seg_is 0 1) tt bt 100) = Ok (Some bpruned2) /\
  result (bop_prune gb (is 3) tt bpruned2 100) = Ok (Some bpruned23) /\ result (bop_prune_path gb (seg_is 1 0) tt bpruned2 100) = Ok (Some bpruned23).
Proof. vm_compute; auto 10. Qed.
Example prune_tree_collection_test :
  trees_of (prune_each g always tt [t; t]) = Ok [] /\ trees_of (prune_each g (is 0) tt [t; t]) = Ok [] /\
  trees_of (prune_each g (is 2) tt [t; t]) = Ok [pruned2; pruned2] /\
  trees_of (prune_path_each g (seg_is 1 1) tt [t; t]) = Ok [pruned2; pruned2] /\
  trees_of (prune_each g (is 3) tt [pruned2; pruned2]) = Ok [pruned23; pruned23] /\
  trees_of (prune_path_each g (seg_is 2 0) tt [pruned2; pruned2]) = Ok [pruned23; pruned23].
Proof. vm_compute; auto 10. Qed.
Example prune_binary_tree_collection_test :
  btrees_of (prune_each_binary gb always tt [bt; bt]) = Ok [] /\ btrees_of (prune_each_binary gb (is 0) tt [bt; bt]) = Ok [] /\
  btrees_of (prune_each_binary gb (is 2) tt [bt; bt]) = Ok [bpruned2; bpruned2] /\
  btrees_of (prune_path_each_binary gb (seg_is 1 1) tt [bt; bt]) = Ok [bpruned2; bpruned2] /\
  btrees_of (prune_each_binary gb (is 3) tt [bpruned2; bpruned2]) = Ok [bpruned23; bpruned23] /\
  btrees_of (prune_path_each_binary gb (seg_is 2 0) tt [bpruned2; bpruned2]) = Ok [bpruned23; bpruned23].
Proof. vm_compute; auto 10. Qed.
(** The sources of the [_mut] tests: [into_pipeline_mut().prune(..).map_trees(|item| item.clone()).trees()], 590-596, 891-897. *)
Example prune_collection_mut_source :
  trees_of (each_chain (into_pipeline_each g [t; t]) (c_map (c_prune c_start tt (is 2)) tt (fun u v => (u, v)))) = Ok [pruned2; pruned2] /\
  btrees_of (each_chain_binary (into_pipeline_each_binary gb [bt; bt]) (c_map (c_prune c_start tt (is 2)) tt (fun u v => (u, v)))) = Ok [bpruned2; bpruned2].
Proof. vm_compute; auto. Qed.
Definition tail6 (x : tree nat) : tree nat := TNode 0 [TNode 1 [TNode 3 []; TNode 4 []]; TNode 2 [TNode 5 []; x]].
Example prune_depth_tree_test :
  result (op_prune_depth g 0 t 100) = Ok (TNode 0 []) /\ result (op_prune_depth g 1 t 100) = Ok (TNode 0 [TNode 1 []; TNode 2 []]) /\
  result (op_prune_depth g 2 t 100) = Ok (tail6 (TNode 6 [])) /\ result (op_prune_depth g 3 t 100) = Ok (tail6 (TNode 6 [TNode 7 []])) /\
  result (op_prune_depth g 4 t 100) = Ok (tail6 (TNode 6 [TNode 7 [TNode 8 []]])) /\
  result (op_prune_depth g 5 t 100) = Ok (tail6 (TNode 6 [TNode 7 [TNode 8 [TNode 9 []]]])) /\
  result (op_prune_depth g 6 t 100) = Ok t /\ result (op_prune_depth g 7 t 100) = Ok t /\ result (op_prune_depth g 8 t 100) = Ok t /\ result (op_prune_depth g 9 t 100) = Ok t.
Proof. vm_compute; auto 20. Qed.
Definition btail6 (x : btree nat) : btree nat :=
  BNode 0 (Some (BNode 1 (Some (bleaf 3)) (Some (bleaf 4)))) (Some (BNode 2 (Some (bleaf 5)) (Some x))).
Example prune_depth_binary_tree_test :
  result (bop_prune_depth gb 0 bt 100) = Ok (bleaf 0) /\ result (bop_prune_depth gb 1 bt 100) = Ok (BNode 0 (Some (bleaf 1)) (Some (bleaf 2))) /\
  result (bop_prune_depth gb 2 bt 100) = Ok (btail6 (bleaf 6)) /\
  result (bop_prune_depth gb 3 bt 100) = Ok (btail6 (BNode 6 (Some (bleaf 7)) None)) /\
  result (bop_prune_depth gb 4 bt 100) = Ok (btail6 (BNode 6 (Some (BNode 7 None (Some (bleaf 8)))) None)) /\
  result (bop_prune_depth gb 5 bt 100) = Ok (btail6 (BNode 6 (Some (BNode 7 None (Some (BNode 8 (Some (bleaf 9)) None)))) None)) /\
  result (bop_prune_depth gb 6 bt 100) = Ok bt /\ result (bop_prune_depth gb 7 bt 100) = Ok bt /\
  result (bop_prune_depth gb 8 bt 100) = Ok bt /\ result (bop_prune_depth gb 9 bt 100) = Ok bt.
Proof. vm_compute; auto 20. Qed.

(** ** README.md and the examples in the documentation comments *)
(** README.md 285-585: the orders are those of the test suite above.  The second example for dfs_inorder (README.md 454-470)
    calls [dfs_preorder] and claims the inorder result; the model (and the test suite) give the preorder result. *)
Example readme_inorder_second_example : all (pre_next gf) (pre_new bt) = Ok [0; 1; 3; 4; 2; 5; 6; 7; 8; 9; 10].
Proof. vm_compute; reflexivity. Qed.
(** README.md 609-650 and doc_files/attach_context.md; doc_files/tree_context_children.md. *)
Definition has10 (s : tree nat) : Res bool := l <- all (pre_next g) (pre_new s) ;; Ok (existsb (Nat.eqb 10) l).
Fixpoint any10 (l : list (tree nat)) : Res bool :=
  match l with [] => Ok false | s :: l => b <- has10 s ;; if b then Ok true else any10 l end.
Fixpoint with10 (l : list (tree_context nat (list (tree nat)))) : Res (list (list nat * bool * bool)) :=
  match l with
  | [] => Ok []
  | c :: l => b <- match c_children c with Some kids => any10 kids | None => Panic end ;; r <- with10 l ;; Ok ((c_ancestors c, b || (last (c_ancestors c) 0 =? 10), b) :: r)
  end.
Example doc_attach_context : (l <- all_of (prec_next g) (pre_attach_context (pre_new t)) ;; with10 l) =
  Ok [([0], true, true); ([0; 1], false, false); ([0; 1; 3], false, false); ([0; 1; 4], false, false); ([0; 2], true, true);
      ([0; 2; 5], false, false); ([0; 2; 6], true, true); ([0; 2; 6; 7], true, true); ([0; 2; 6; 7; 8], true, true);
      ([0; 2; 6; 7; 8; 9], true, true); ([0; 2; 6; 7; 8; 9; 10], true, false)].
Proof. vm_compute; reflexivity. Qed.
(** README.md 670-693. *)
Example readme_attach_ancestors :
  (l <- all_of (ina_next gb) (in_attach_ancestors (in_new bt)) ;; Ok (map (fun sl => last sl 0) (filter (forallb Nat.even) l))) = Ok [0; 2; 6].
Proof. vm_compute; reflexivity. Qed.
(** README.md 710-726.  README.md 732-756 calls [leaves()] after two calls to [next] and claims the output 0, 1, 3, 4, 5, 10.
    The code loses 3 and 4, the leaves below a node that has been yielded (property C18). *)
Example readme_leaves : all (dleaves_next g) (pre_leaves (pre_new t)) = Ok [3; 4; 5; 10] /\
  ('(a, s) <- pre_next g 100 (pre_new t) ;; '(b, s) <- pre_next g 100 s ;; l <- all (dleaves_next g) (pre_leaves s) ;; Ok (a, b, l)) =
  Ok (Some 0, Some 1, [5; 10]).
Proof. vm_compute; auto. Qed.
(** doc_files/at_path_*_example.md. *)
Example doc_at_path :
  option_map (@root nat) (at_path g (TNode 0 [TNode 1 [TNode 2 []; TNode 3 []]]) [0; 1]%N) = Some 3 /\
  option_map (@broot nat) (at_path_binary gb (BNode 0 (Some (BNode 1 (Some (bleaf 2)) (Some (bleaf 3)))) None) [0; 1]%N) = Some 3 /\
  option_map (@root nat) (coll_at_path g [TNode 0 []; TNode 1 [TNode 2 []; TNode 3 [TNode 4 []]]] [1; 1; 0]%N) = Some 4 /\
  option_map (@broot nat) (coll_at_path_binary gb [bleaf 0; BNode 1 None (Some (BNode 2 (Some (bleaf 3)) None))] [1; 1; 0]%N) = Some 3.
Proof. vm_compute; auto. Qed.
(** doc_files/path.md and collection_path.md: the letters are numbered A = 0 ... Z = 25; the places of A, D, H, K, Q and of A, K, Q, V, X, Z. *)
Definition tleaf (v : nat) : tree nat := TNode v [].
Definition tree_A : tree nat :=
  TNode 0 [TNode 1 [tleaf 4; tleaf 5; tleaf 6]; TNode 2 [tleaf 7; tleaf 8; tleaf 9];
           TNode 3 [tleaf 10; tleaf 11; TNode 12 [TNode 13 [TNode 14 [tleaf 15; tleaf 16]]]]].
Definition tree_R (y : tree nat) : tree nat :=
  TNode 17 [TNode 18 [tleaf 20; y; TNode 22 [TNode 24 [tleaf 25]]]; TNode 19 [tleaf 23]].
Definition path_to (v : nat) (l : list (list N * list nat)) : option (list N) :=
  option_map fst (find (fun c => last (snd c) 99 =? v) l).
Example doc_path : (l <- seens (all_of (prec_next g) (pre_attach_context (pre_new tree_A))) ;; Ok (map (fun v => path_to v l) [0; 3; 7; 10; 16])) =
  Ok [Some []; Some [2]; Some [1; 0]; Some [2; 0]; Some [2; 2; 0; 0; 1]]%N.
Proof. vm_compute; reflexivity. Qed.
(** Not the picture: the list says that V is at [1, 0, 1] and Z at [1, 0, 2, 0, 0], so Y and Z hang below W. *)
Example doc_collection_path :
  (l <- seens (all_of (prec_each_next g) (coll_attach (coll_new [tree_A; tree_R (tleaf 21)] : coll _ (pre_iter (tree nat))))) ;; Ok (map (fun v => path_to v l) [0; 10; 16; 21; 23; 25])) =
  Ok [Some [0]; Some [0; 2; 0]; Some [0; 2; 2; 0; 0; 1]; Some [1; 0; 1]; Some [1; 1; 0]; Some [1; 0; 2; 0; 0]]%N.
Proof. vm_compute; reflexivity. Qed.
(** prelude.rs 351-398, 889-934: [into_pipeline().prune_depth(2).map_tree(|value| value + 200).collect_tree()]. *)
Definition add200 (u : unit) (v : nat) : unit * nat := (u, v + 200).
Example doc_into_pipeline :
  result (collect_tree (tree_chain (into_pipeline g t) (c_map (c_prune_depth c_start 2) tt add200)) 100) =
    Ok (Some (TNode 200 [TNode 201 [tleaf 203; tleaf 204]; TNode 202 [tleaf 205; tleaf 206]])) /\
  result (bcollect_tree (btree_chain (into_pipeline_binary gb bt) (c_map (c_prune_depth c_start 2) tt add200)) 100) =
    Ok (Some (BNode 200 (Some (BNode 201 (Some (bleaf 203)) (Some (bleaf 204)))) (Some (BNode 202 (Some (bleaf 205)) (Some (bleaf 206)))))).
Proof. vm_compute; auto. Qed.
(** prelude.rs 417-471, 554-606 (the paths: 586-588), 952-1004, 1022-1074: what the closures of [prune] and [prune_path] print.
    The documentation of the binary [prune_path] shows the paths [0], [0, 0] and [0, 1]; the root's path is in fact empty,
    as doc_files/path.md says, and so the closure sees [], [0] and [1]. *)
Definition doc_t := TNode 0 [TNode 1 [tleaf 3]; tleaf 2].
Definition doc_bt := BNode 0 (Some (BNode 1 (Some (bleaf 3)) None)) (Some (bleaf 2)).
Definition log_is (k : nat) (log : list nat) (v : nat) : list nat * bool := (log ++ [v], v =? k).
Definition log_path (p : list N -> nat -> bool) (log : list (list N * nat)) (path : list N) (v : nat) : list (list N * nat) * bool :=
  (log ++ [(path, v)], p path v).
Example doc_prune :
  (exists s, op_prune g (log_is 1) [] doc_t 100 = Ok (Some (TNode 0 [tleaf 2]), s) /\ pr_clos s = [0; 1; 2]) /\
  (exists s, bop_prune gb (log_is 1) [] doc_bt 100 = Ok (Some (BNode 0 None (Some (bleaf 2))), s) /\ snd s = [0; 1; 2]) /\
  (exists s, op_prune_path g (log_path (fun p _ => match p with 0%N :: _ => true | _ => false end)) [] doc_t 100 =
     Ok (Some (TNode 0 [tleaf 2]), s) /\ pr_clos s = [([], 0); ([0%N], 1); ([1%N], 2)]) /\
  (exists s, bop_prune_path gb (log_path (fun _ v => v =? 1)) [] doc_bt 100 =
     Ok (Some (BNode 0 None (Some (bleaf 2))), s) /\ snd s = [([], 0); ([0%N], 1); ([1%N], 2)]).
Proof. vm_compute; eauto 20. Qed.
(** prelude.rs 501-536, 1102-1137. *)
Example doc_prune_depth : result (op_prune_depth g 0 doc_t 100) = Ok (tleaf 0) /\ result (bop_prune_depth gb 0 doc_bt 100) = Ok (bleaf 0).
Proof. vm_compute; auto. Qed.
