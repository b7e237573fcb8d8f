(** * ModelPipeColl: pipelines over a collection of trees (tree_collection_iterators/, and the path-tracking
    collection iterators they start from).

    The adapters (CollectionMap, CollectionPrune, CollectionPrunePath, CollectionPruneDepth and the binary ones) have
    the code of their single-tree counterparts and are modelled by the same definitions ([run_chain] of ModelPipe,
    with this file's [coll_depth] and the starting vectors of [CollectionPrunePath::new]). *)
From Verif Require Import Prelim Spec SpecPipe ModelNode ModelPre ModelPipe.

(** ** The start: path tracking over a collection *)
Section CollTracking.
  Context {Nd V I C : Type}.
  (** [next] of the single-tree path-tracking iterator. *)
  Variable next : nat -> ptrack Nd I C -> Res (option V * ptrack Nd I C).

  (** [OwnedDFSPreorderCollectionIteratorWithPathTracking] dfs_preorder_iterators/owned.rs 54-61 (binary 349-356;
      mut_borrow.rs 56-65, 351-360; borrow.rs 54-61, 352-361): the trees not taken yet, the count kept by
      [Enumerate], and the iterator of the current tree. *)
  Record ctrack := mkCt {
    ct_trees : list Nd;
    ct_count : N;
    ct_cur : option (ptrack Nd I C)
  }.

  (** [new] owned.rs 68-73 (363-368). *)
  Definition ct_new (trees : list Nd) : ctrack := mkCt trees 0%N None.

  (** [if let Some(next_tree) = self.tree_collection.next() {..} else { return None }] owned.rs 91-100: [Enumerate::next]
      counts with [+= 1]. *)
  Definition ct_take (trees : list Nd) (count : N) (cur : option (ptrack Nd I C)) : Res (ctrack + option V * ctrack) :=
    match trees with
    | [] => Ok (inr (None, mkCt [] count cur))
    | t :: rest => count' <- checked_succ count ;; Ok (inl (mkCt rest count' (Some (pt_new t [count]))))
    end.

  (** The loop of [next], owned.rs 84-101 (380-396). *)
  Definition ct_body (fuel : nat) (s : ctrack) : Res (ctrack + option V * ctrack) :=
    match ct_cur s with
    | Some it =>
        '(o, it) <- next fuel it ;;
        match o with
        | Some v => Ok (inr (Some v, mkCt (ct_trees s) (ct_count s) (Some it)))
        | None => ct_take (ct_trees s) (ct_count s) (Some it)
        end
    | None => ct_take (ct_trees s) (ct_count s) None
    end.
  Definition ct_next (fuel : nat) (s : ctrack) : Res (option V * ctrack) := loop ct_body fuel s.

  (** [current_path] owned.rs 114-119 (406-411). *)
  Definition ct_path (s : ctrack) : list N :=
    match ct_cur s with Some it => pt_current_path it | None => [] end.

  (** [prune_current_subtree] owned.rs 121-125 (413-417). *)
  Definition ct_prune (s : ctrack) : ctrack :=
    mkCt (ct_trees s) (ct_count s) (match ct_cur s with Some it => Some (pt_prune it) | None => None end).
End CollTracking.
Arguments ctrack : clear implicits.
Arguments mkCt {Nd I C} _ _ _.
Arguments ct_trees {Nd I C} _.
Arguments ct_count {Nd I C} _.
Arguments ct_cur {Nd I C} _.

(** [into_pipeline] of a collection, prelude.rs 3600-3602 ([into_pipeline_mut] 4150, [into_pipeline_ref] 4704). *)
Definition into_pipeline_each {Nd V} (gvc : Nd -> V * list Nd) (trees : list Nd) : pipe V :=
  mkPipe (ctrack Nd Nd (list Nd)) (ct_new trees) (ct_next (pt_next gvc)) ct_path ct_prune.

(** Binary: prelude.rs 3865-3872 (4418, 4971). *)
Definition into_pipeline_each_binary {Nd V} (gvcb : Nd -> V * (option Nd * option Nd)) (trees : list Nd) : pipe V :=
  mkPipe (ctrack Nd (option Nd) (option Nd * option Nd)) (ct_new trees) (ct_next (ptb_next gvcb)) ct_path ct_prune.

(** [current_depth] of collections, tree_collection_iterators/mod.rs 49-51: [path.len() - 1], which panics on an empty
    path (overflow checks on). *)
Definition coll_depth (path : list N) : Res N :=
  match path with [] => Panic | _ :: rest => Ok (N.of_nat (length rest)) end.

(** Chains on a collection: prune.rs 25-34 starts with empty vectors, prune_path.rs 25-39 with [[0]]. *)
Definition each_chain {V A} (P : pipe V) (c : chain V A) : pipe A := run_chain coll_depth [0%N] P c.
Definition each_chain_binary {V A} (P : pipe V) (c : chain V A) : pipe A := run_chain_binary coll_depth P c.

(** ** The end: [trees], [fold_trees], [fold_path]

    The six consumers (trees.rs, fold.rs, fold_path.rs) are iterators whose [next] has the same skeleton; they differ in
    their local variables [St], in the condition and the body of their inner [while], and in what they do with a new
    item.  [C] is what the object keeps between calls besides the inner iterator and the item read ahead: the closure.
    [fold_each], [fold_path_each] and their [_mut] and [_ref] variants (prelude.rs 3815-3849, 4100-4134, 4367-4401, 4654-4688, 4921-4955,
    5203-5237) put such a consumer straight on the collection. *)
Section Consumer.
  Context {A O C St : Type}.
  Variable P : pipe A.
  (** The local variables at the start of [next]. *)
  Variable start : C -> St.
  (** The condition of the inner [while]. *)
  Variable must_close : St -> list N -> Res bool.
  (** The local stack is empty: the condition of the last [while let] fails. *)
  Variable drained : St -> option C.
  (** The body of the inner [while], and of the last [while let]: the node on top is complete; it goes to its parent
      ([inl]), or it is the root of a complete tree ([inr]). *)
  Variable close_top : St -> Res (St + O * C).
  (** What is done with a new item. *)
  Variable push : St -> A -> list N -> Res St.

  (** The inner [while]: trees.rs 48-60, 126-142; fold.rs 57-67, 136-146; fold_path.rs 58-69, 146-157. *)
  Definition close_body (path : list N) (_ : nat) (st : St) : Res (St + (St + O * C)) :=
    b <- must_close st path ;;
    if b then r <- close_top st ;; match r with inl st' => Ok (inl st') | inr out => Ok (inr (inr out)) end
    else Ok (inr (inl st)).

  (** The last [while let]: trees.rs 68-75, 154-165; fold.rs 73-83, 152-162; fold_path.rs 80-91, 164-175. *)
  Definition drain_body (_ : nat) (st : St) : Res (St + option O * C) :=
    match drained st with
    | Some c => Ok (inr (None, c))
    | None => r <- close_top st ;; match r with inl st' => Ok (inl st') | inr (o, c) => Ok (inr (Some o, c)) end
    end.

  (** State of the object: inner iterator, item read ahead, closure. *)
  Definition consumer : Type := p_state P * option A * C.

  (** The loop of [next]: trees.rs 38-66, 116-152; fold.rs 48-71, 127-150; fold_path.rs 49-78, 137-162. *)
  Definition consume_body (fuel : nat) (s : p_state P * option A * St) : Res (p_state P * option A * St + option O * consumer) :=
    let '(i, ahead, st) := s in
    '(o, i) <- (match ahead with Some item => Ok (Some item, i) | None => p_next P fuel i end) ;;
    match o with
    | None => '(r, c) <- loop drain_body fuel st ;; Ok (inr (r, (i, None, c)))
    | Some item =>
        r <- loop (close_body (p_path P i)) fuel st ;;
        match r with
        | inr (out, c) => Ok (inr (Some out, (i, Some item, c)))
        | inl st => st <- push st item (p_path P i) ;; Ok (inl (i, None, st))
        end
    end.

  Definition consume_next (fuel : nat) (s : consumer) : Res (option O * consumer) :=
    let '(i, ahead, c) := s in loop consume_body fuel (i, ahead, start c).

  (** [new]: nothing read ahead. *)
  Definition consume_new (c : C) : consumer := (p_init P, None, c).
End Consumer.

(** [last().unwrap()]. *)
Definition last_seg (path : list N) : Res N := unwrap (hd_error (rev path)).

(** [while folded_so_far.len() > self.inner.current_depth()]. *)
Definition deeper (len : nat) (path : list N) : Res bool := d <- coll_depth path ;; Ok (d <? N.of_nat len)%N.

Section Trees.
  Context {A : Type} (P : pipe A).

  (** trees.rs 49-59, 68-73. *)
  Definition trees_close (st : list (tree A)) : Res (list (tree A) + tree A * unit) :=
    match st with
    | [] => Panic
    | [popped] => Ok (inr (popped, tt))
    | popped :: TNode v cs :: rest => Ok (inl (TNode v (cs ++ [popped]) :: rest))
    end.
  Definition is_nil {B} (st : list B) : option unit := match st with [] => Some tt | _ => None end.

  (** [Trees::next] trees.rs 36-76, [Trees::new] 20-27. *)
  Definition trees_next : nat -> consumer P -> Res (option (tree A) * consumer P) :=
    consume_next P (fun _ : unit => []) (fun st path => Ok (length path <=? length st)) is_nil trees_close
      (fun st item _ => Ok (TNode item [] :: st)).
  Definition trees_new : consumer P := consume_new P tt.

  (** trees.rs 127-141, 154-162. *)
  Definition btrees_close (st : list (N * btree A)) : Res (list (N * btree A) + btree A * unit) :=
    match st with
    | [] => Panic
    | [(_, popped)] => Ok (inr (popped, tt))
    | (slot, popped) :: (slot', t) :: rest => t' <- set_child slot t popped ;; Ok (inl ((slot', t') :: rest))
    end.

  (** [BinaryTrees::next] trees.rs 114-166, [BinaryTrees::new] 98-105. *)
  Definition btrees_next : nat -> consumer P -> Res (option (btree A) * consumer P) :=
    consume_next P (fun _ : unit => []) (fun st path => Ok (length path <=? length st)) is_nil btrees_close
      (fun st item path => slot <- last_seg path ;; Ok ((slot, BNode item None None) :: st)).
End Trees.

Section FoldTrees.
  Context {A G O : Type} (P : pipe A).

  (** [Fold]: closure state, inversion_stack, folded_so_far (tops first). *)
  Variable f : G -> list O -> A -> G * O.
  Definition cfold_st : Type := G * list A * list (list O).
  (** fold.rs 58-66, 73-81. *)
  Definition cfold_close (st : cfold_st) : Res (cfold_st + O * G) :=
    let '(g, values, folded) := st in
    match folded with
    | [] => Panic
    | items :: folded =>
        match values with
        | [] => Panic
        | value :: values =>
            let '(g, r) := f g items value in
            match folded with
            | [] => Ok (inr (r, g))
            | last :: rest => Ok (inl (g, values, (last ++ [r]) :: rest))
            end
        end
    end.
  (** [Fold::next] fold.rs 44-84, [Fold::new] 25-34. *)
  Definition cfold_next : nat -> consumer P -> Res (option O * consumer P) :=
    consume_next P (fun g : G => (g, [], [])) (fun st path => deeper (length (snd st)) path)
      (fun st : cfold_st => match snd st with [] => Some (fst (fst st)) | _ => None end) cfold_close
      (fun st item _ => let '(g, values, folded) := st in Ok (g, item :: values, [] :: folded)).
End FoldTrees.

Section BFoldTrees.
  Context {A G O : Type} (P : pipe A).

  (** [BinaryFold]: folded_so_far also has the slot. *)
  Variable f : G -> option O * option O -> A -> G * O.
  Definition bcfold_st : Type := G * list A * list (N * (option O * option O)).
  (** fold.rs 137-145, 152-160. *)
  Definition bcfold_close (st : bcfold_st) : Res (bcfold_st + O * G) :=
    let '(g, values, folded) := st in
    match folded with
    | [] => Panic
    | (slot, items) :: folded =>
        match values with
        | [] => Panic
        | value :: values =>
            let '(g, r) := f g items value in
            match folded with
            | [] => Ok (inr (r, g))
            | (slot', last) :: rest => last <- set_slot slot last r ;; Ok (inl (g, values, (slot', last) :: rest))
            end
        end
    end.
  (** [BinaryFold::next] fold.rs 124-163, [BinaryFold::new] 105-114. *)
  Definition bcfold_next : nat -> consumer P -> Res (option O * consumer P) :=
    consume_next P (fun g : G => (g, [], [])) (fun st path => deeper (length (snd st)) path)
      (fun st : bcfold_st => match snd st with [] => Some (fst (fst st)) | _ => None end) bcfold_close
      (fun st item path => let '(g, values, folded) := st in
         slot <- last_seg path ;; Ok (g, item :: values, (slot, (None, None)) :: folded)).
End BFoldTrees.

Section FoldPathTrees.
  Context {A G O : Type} (P : pipe A).

  (** [FoldPath]: closure state, inversion_stack, folded_so_far, path (all with the last element first). *)
  Variable f : G -> list O -> list N -> A -> G * O.
  Definition cfoldp_st : Type := G * list A * list (list O) * list N.
  (** fold_path.rs 59-68, 80-88. *)
  Definition cfoldp_close (st : cfoldp_st) : Res (cfoldp_st + O * G) :=
    let '(g, values, folded, path) := st in
    match folded with
    | [] => Panic
    | items :: folded =>
        match values with
        | [] => Panic
        | value :: values =>
            let '(g, r) := f g items (rev path) value in
            match path with
            | [] => Panic
            | _ :: path =>
                match folded with
                | [] => Ok (inr (r, g))
                | last :: rest => Ok (inl (g, values, (last ++ [r]) :: rest, path))
                end
            end
        end
    end.
  (** fold_path.rs 71-77. *)
  Definition cfoldp_push (st : cfoldp_st) (item : A) (ipath : list N) : Res cfoldp_st :=
    let '(g, values, folded, path) := st in
    d <- coll_depth ipath ;;
    path <- (if (N.of_nat (length path) =? d + 1)%N then
               match path with [] => Panic | _ :: path => seg <- last_seg ipath ;; Ok (seg :: path) end
             else seg <- last_seg ipath ;; Ok (seg :: path)) ;;
    Ok (g, item :: values, [] :: folded, path).
  (** [FoldPath::next] fold_path.rs 44-92, [FoldPath::new] 25-34. *)
  Definition cfoldp_next : nat -> consumer P -> Res (option O * consumer P) :=
    consume_next P (fun g : G => (g, [], [], [])) (fun st path => deeper (length (snd (fst st))) path)
      (fun st : cfoldp_st => match snd (fst st) with [] => Some (fst (fst (fst st))) | _ => None end)
      cfoldp_close cfoldp_push.
End FoldPathTrees.

Section BFoldPathTrees.
  Context {A G O : Type} (P : pipe A).

  Variable f : G -> option O * option O -> list N -> A -> G * O.
  Definition bcfoldp_st : Type := G * list A * list (option O * option O) * list N.
  (** fold_path.rs 147-156, 164-172. *)
  Definition bcfoldp_close (st : bcfoldp_st) : Res (bcfoldp_st + O * G) :=
    let '(g, values, folded, path) := st in
    match folded with
    | [] => Panic
    | items :: folded =>
        match values with
        | [] => Panic
        | value :: values =>
            let '(g, r) := f g items (rev path) value in
            match path with
            | [] => Panic
            | seg :: path =>
                match folded with
                | [] => Ok (inr (r, g))
                | last :: rest => last <- set_slot seg last r ;; Ok (inl (g, values, last :: rest, path))
                end
            end
        end
    end.
  (** [BinaryFoldPath::next] fold_path.rs 133-176 (a new item: 159-161), [BinaryFoldPath::new] 113-122. *)
  Definition bcfoldp_next : nat -> consumer P -> Res (option O * consumer P) :=
    consume_next P (fun g : G => (g, [], [], [])) (fun st path => deeper (length (snd (fst st))) path)
      (fun st : bcfoldp_st => match snd (fst st) with [] => Some (fst (fst (fst st))) | _ => None end)
      bcfoldp_close
      (fun st item ipath => let '(g, values, folded, path) := st in
         seg <- last_seg ipath ;; Ok (g, item :: values, (None, None) :: folded, seg :: path)).
End BFoldPathTrees.

(** ** The operations of prelude.rs on collections: one stage and a consumer, whose [next] is modelled above *)
Section Each.
  Context {Nd V : Type} (gvc : Nd -> V * list Nd).
  (** [map_each(f)] 3767-3784 (mut 4319-4336, ref 4873-4890): [self.into_pipeline().map_trees(f).trees()]. *)
  Definition map_each {B G} (f : G -> V -> G * B) (g : G) (trees : list Nd) : pipe B :=
    each_chain (into_pipeline_each gvc trees) (c_map c_start g f).
  (** [prune_each] 3701-3717 (4253-4269, 4807-4823). *)
  Definition prune_each {G} (f : G -> V -> G * bool) (g : G) (trees : list Nd) : pipe V :=
    each_chain (into_pipeline_each gvc trees) (c_prune c_start g f).
  (** [prune_path_each] 3724-3740 (4276-4292, 4830-4846). *)
  Definition prune_path_each {G} (f : G -> list N -> V -> G * bool) (g : G) (trees : list Nd) : pipe V :=
    each_chain (into_pipeline_each gvc trees) (c_prune_path c_start g f).
  (** [prune_depth_each] 3748-3760 (4300-4312, 4854-4866). *)
  Definition prune_depth_each (d : N) (trees : list Nd) : pipe V :=
    each_chain (into_pipeline_each gvc trees) (c_prune_depth c_start d).
End Each.

Section EachBinary.
  Context {Nd V : Type} (gvcb : Nd -> V * (option Nd * option Nd)).
  (** Binary [map_each] 4052-4069 (mut 4606-4623, ref 5155-5172). *)
  Definition map_each_binary {B G} (f : G -> V -> G * B) (g : G) (trees : list Nd) : pipe B :=
    each_chain_binary (into_pipeline_each_binary gvcb trees) (c_map c_start g f).
  (** Binary [prune_each] 3986-4002 (mut 4540-4556, ref 5089-5105). *)
  Definition prune_each_binary {G} (f : G -> V -> G * bool) (g : G) (trees : list Nd) : pipe V :=
    each_chain_binary (into_pipeline_each_binary gvcb trees) (c_prune c_start g f).
  (** Binary [prune_path_each] 4009-4025 (mut 4563-4579, ref 5112-5128). *)
  Definition prune_path_each_binary {G} (f : G -> list N -> V -> G * bool) (g : G) (trees : list Nd) : pipe V :=
    each_chain_binary (into_pipeline_each_binary gvcb trees) (c_prune_path c_start g f).
  (** Binary [prune_depth_each] 4033-4045 (mut 4587-4599, ref 5136-5148). *)
  Definition prune_depth_each_binary (d : N) (trees : list Nd) : pipe V :=
    each_chain_binary (into_pipeline_each_binary gvcb trees) (c_prune_depth c_start d).
End EachBinary.
