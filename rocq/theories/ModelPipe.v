(** * ModelPipe: pipelines over one tree (tree_iterators/, and the path-tracking preorder iterator they start from).

    A pipeline object is a state with its methods.  Closures ([FnMut]) are a state and a function; a closure that
    panics or does not return is not modelled.  The [PhantomData] fields are left out, and so are the
    [shrink_to_fit] calls. *)
From Verif Require Import Prelim Spec SpecPipe ModelNode ModelPre.

(** The traits [TreeIteratorBase] (tree_iterators/mod.rs 17-181) and [TreeCollectionIteratorBase]
    (tree_collection_iterators/mod.rs): [Iterator::next], [current_path], [prune_current_subtree]. *)
Record pipe (A : Type) : Type := mkPipe {
  p_state : Type;
  p_init : p_state;
  p_next : nat -> p_state -> Res (option A * p_state);
  p_path : p_state -> list N;
  p_prune : p_state -> p_state
}.
Arguments mkPipe {A} p_state p_init p_next p_path p_prune.
Arguments p_state {A} p.
Arguments p_init {A} p.
Arguments p_next {A} p fuel s.
Arguments p_path {A} p s.
Arguments p_prune {A} p s.

(** ** The start of a pipeline: the path-tracking preorder iterator *)
Section PathTracking.
  Context {Nd V : Type}.

  (** [OwnedDFSPreorderIteratorWithPathTracking] dfs_preorder_iterators/owned.rs 197-205 (binary 503-511); the path
      has its last segment first. *)
  Record ptrack (I C : Type) := mkPt {
    pt_root : option Nd;
    pt_path : list N;
    pt_deck : option C;
    pt_stack : list (list I)
  }.
  Global Arguments mkPt {I C} _ _ _ _.
  Global Arguments pt_root {I C} _.
  Global Arguments pt_path {I C} _.
  Global Arguments pt_deck {I C} _.
  Global Arguments pt_stack {I C} _.

  (** [new] owned.rs 211-218 (binary 517-524). *)
  Definition pt_new {I C} (root : Nd) (path : list N) : ptrack I C := mkPt (Some root) (rev path) None [].

  (** The search loop, mod.rs 49-62. *)
  Definition pt_body (_ : nat) (s : list (list Nd) * list N)
    : Res (list (list Nd) * list N + option Nd * (list (list Nd) * list N)) :=
    let '(stack, path) := s in
    match stack with
    | [] => Ok (inr (None, ([], path)))
    | top :: rest =>
        match top with
        | n :: top' => path <- incr_last path ;; Ok (inr (Some n, (top' :: rest, path)))
        | [] => Ok (inl (rest, tl path))
        end
    end.

  (** The search loop of the binary version, mod.rs 87-104 ([prec_scan] is its inner [while]). *)
  Definition ptb_body (_ : nat) (s : list (list (option Nd)) * list N)
    : Res (list (list (option Nd)) * list N + option Nd * (list (list (option Nd)) * list N)) :=
    let '(stack, path) := s in
    match stack with
    | [] => Ok (inr (None, ([], path)))
    | top :: rest =>
        '(found, top', path) <- prec_scan top path ;;
        match found with
        | Some n => Ok (inr (Some n, (top' :: rest, path)))
        | None => Ok (inl (rest, tl path))
        end
    end.

  (** [next] mod.rs 37-70 (binary 75-112). *)
  Definition pt_next_with {I C} (gv : Nd -> V * C) (into_iter : C -> list I)
      (body : nat -> list (list I) * list N -> Res (list (list I) * list N + option Nd * (list (list I) * list N)))
      (fuel : nat) (s : ptrack I C) : Res (option V * ptrack I C) :=
    match pt_root s with
    | Some root =>
        let '(value, children) := gv root in
        Ok (Some value, mkPt None (pt_path s) (Some children) (pt_stack s))
    | None =>
        let '(stack, path) :=
          match pt_deck s with
          | Some children => (into_iter children :: pt_stack s, usize_max :: pt_path s)
          | None => (pt_stack s, pt_path s)
          end in
        '(next, (stack, path)) <- loop body fuel (stack, path) ;;
        match next with
        | None => Ok (None, mkPt None path None stack)
        | Some node =>
            let '(value, children) := gv node in
            Ok (Some value, mkPt None path (Some children) stack)
        end
    end.

  (** [current_path] owned.rs 234-236 (binary 540-542). *)
  Definition pt_current_path {I C} (s : ptrack I C) : list N := rev (pt_path s).

  (** [prune_current_subtree] owned.rs 238-240 (binary 544-546). *)
  Definition pt_prune {I C} (s : ptrack I C) : ptrack I C := mkPt (pt_root s) (pt_path s) None (pt_stack s).
End PathTracking.
Arguments ptrack : clear implicits.

Definition pt_next {Nd V} (gvc : Nd -> V * list Nd) : nat -> ptrack Nd Nd (list Nd) -> Res (option V * ptrack Nd Nd (list Nd)) :=
  pt_next_with gvc (fun l => l) pt_body.
Definition ptb_next {Nd V} (gvcb : Nd -> V * (option Nd * option Nd)) :
    nat -> ptrack Nd (option Nd) (option Nd * option Nd) -> Res (option V * ptrack Nd (option Nd) (option Nd * option Nd)) :=
  pt_next_with gvcb pair_iter ptb_body.

(** [into_pipeline] prelude.rs 938-940, [into_pipeline_mut] 2045, [into_pipeline_ref] 3148. *)
Definition into_pipeline {Nd V} (gvc : Nd -> V * list Nd) (n : Nd) : pipe V :=
  mkPipe (ptrack Nd Nd (list Nd)) (pt_new n []) (pt_next gvc) pt_current_path pt_prune.

(** Binary: prelude.rs 401-403, 1509, 2615. *)
Definition into_pipeline_binary {Nd V} (gvcb : Nd -> V * (option Nd * option Nd)) (n : Nd) : pipe V :=
  mkPipe (ptrack Nd (option Nd) (option Nd * option Nd)) (pt_new n []) (ptb_next gvcb) pt_current_path pt_prune.

(** ** Adapters *)
Section Map.
  Context {A B G : Type}.
  Variable inner : pipe A.
  Variable f : G -> A -> G * B.

  (** [Map::next] map.rs 38-40 (tree_collection_iterators/map.rs 39-41). *)
  Definition map_next (fuel : nat) (s : p_state inner * G) : Res (option B * (p_state inner * G)) :=
    '(o, i) <- p_next inner fuel (fst s) ;;
    match o with
    | Some value => let '(g, b) := f (snd s) value in Ok (Some b, (i, g))
    | None => Ok (None, (i, snd s))
    end.

  (** [map_tree] tree_iterators/mod.rs 164-169; [current_path], [prune_current_subtree] map.rs 49-55. *)
  Definition map_tree (g : G) : pipe B :=
    mkPipe (p_state inner * G) (p_init inner, g) map_next (fun s => p_path inner (fst s))
      (fun s => (p_prune inner (fst s), snd s)).
End Map.

Section PruneDepth.
  Context {A : Type}.
  Variable inner : pipe A.
  (** [current_depth()] of the trait: [path.len()] (tree_iterators/mod.rs 43-45) or [path.len() - 1]
      (tree_collection_iterators/mod.rs 49-51). *)
  Variable depth_of : list N -> Res N.

  (** [PruneDepth::next] prune_depth.rs 21-31 (tree_collection_iterators/prune_depth.rs 21-31). *)
  Definition prune_depth_next (limit : N) (fuel : nat) (s : p_state inner) : Res (option A * p_state inner) :=
    '(o, i) <- p_next inner fuel s ;;
    match o with
    | Some value =>
        d <- depth_of (p_path inner i) ;;
        Ok (Some value, if (d =? limit)%N then p_prune inner i else i)
    | None => Ok (None, i)
    end.

  (** [prune_depth] tree_iterators/mod.rs 110-117; prune_depth.rs 39-48. *)
  Definition prune_depth (limit : N) : pipe A :=
    mkPipe (p_state inner) (p_init inner) (prune_depth_next limit) (p_path inner) (p_prune inner).
End PruneDepth.

(** [*v.last_mut() += 1] when there is a last element. *)
Fixpoint succ_last (v : list N) : Res (list N) :=
  match v with
  | [] => Ok []
  | [x] => y <- checked_succ x ;; Ok [y]
  | x :: v' => w <- succ_last v' ;; Ok (x :: w)
  end.

(** [v[i] += 1]. *)
Fixpoint succ_at (i : nat) (v : list N) : Res (list N) :=
  match i, v with
  | _, [] => Panic
  | 0, x :: v' => y <- checked_succ x ;; Ok (y :: v')
  | S i', x :: v' => w <- succ_at i' v' ;; Ok (x :: w)
  end.

Section Prune.
  Context {A G : Type}.
  Variable inner : pipe A.
  Variable f : G -> list N -> A -> G * bool.

  (** [Prune] prune.rs 7-18, [PrunePath] prune_path.rs 7-18; vectors in Rust order. *)
  Record prune_st := mkPrune {
    pr_inner : p_state inner;
    pr_clos : G;
    pr_pruned : list N;
    pr_path : list N
  }.

  (** prune.rs 48-65: bring both vectors to the inner path's length.  The [loop] of pushes (51-57) runs
      [len - pruned.len()] times, both vectors getting the same number of zeros. *)
  Definition prune_resize (len : nat) (pruned path : list N) : Res (list N * list N) :=
    if length pruned <? len then
      Ok (pruned ++ repeat 0%N (len - length pruned), path ++ repeat 0%N (len - length pruned))
    else if len <? length pruned then
      path' <- succ_last (firstn len path) ;; Ok (firstn len pruned, path')
    else Ok (pruned, path).

  (** The [while let] loop of [next], prune.rs 44-86 (prune_path.rs 44-86, where the closure also receives
      [self.inner.current_path()]; [Prune]'s closure is one that ignores it). *)
  Definition prune_body (fuel : nat) (s : prune_st) : Res (prune_st + option A * prune_st) :=
    '(o, i) <- p_next inner fuel (pr_inner s) ;;
    match o with
    | None => Ok (inr (None, mkPrune i (pr_clos s) [] []))
    | Some item =>
        '(pruned, path) <- prune_resize (length (p_path inner i)) (pr_pruned s) (pr_path s) ;;
        let '(g, cut) := f (pr_clos s) (p_path inner i) item in
        if cut then
          pruned <- (if 0 <? length path then succ_at (length path - 1) pruned else Ok pruned) ;;
          Ok (inl (mkPrune (p_prune inner i) g pruned path))
        else Ok (inr (Some item, mkPrune i g pruned path))
    end.
  Definition prune_next (fuel : nat) (s : prune_st) : Res (option A * prune_st) := loop prune_body fuel s.

  (** [new] prune.rs 25-34 with empty vectors ([start] = []); the collection's [CollectionPrunePath::new] starts with
      [[0]] in both (tree_collection_iterators/prune_path.rs 25-39).  [current_path] prune.rs 95-97,
      [prune_current_subtree] 99-101. *)
  Definition prune_from (start : list N) (g : G) : pipe A :=
    mkPipe prune_st (mkPrune (p_init inner) g start start) prune_next pr_path
      (fun s => mkPrune (p_prune inner (pr_inner s)) (pr_clos s) (pr_pruned s) (pr_path s)).

  (** [BinaryPrune::next] prune.rs 145-156 (prune_path.rs 145-157): the same without the vectors. *)
  Definition bprune_body (fuel : nat) (s : p_state inner * G) : Res (p_state inner * G + option A * (p_state inner * G)) :=
    '(o, i) <- p_next inner fuel (fst s) ;;
    match o with
    | None => Ok (inr (None, (i, snd s)))
    | Some item =>
        let '(g, cut) := f (snd s) (p_path inner i) item in
        if cut then Ok (inl (p_prune inner i, g)) else Ok (inr (Some item, (i, g)))
    end.
  Definition bprune_next (fuel : nat) (s : p_state inner * G) : Res (option A * (p_state inner * G)) := loop bprune_body fuel s.

  (** [BinaryPrune] prune.rs 112-171, [BinaryPrunePath] prune_path.rs 112-172. *)
  Definition bprune (g : G) : pipe A :=
    mkPipe (p_state inner * G) (p_init inner, g) bprune_next (fun s => p_path inner (fst s))
      (fun s => (p_prune inner (fst s), snd s)).
End Prune.
Arguments mkPrune {A G inner} _ _ _ _.
Arguments pr_inner {A G inner} _.
Arguments pr_clos {A G inner} _.
Arguments pr_pruned {A G inner} _.
Arguments pr_path {A G inner} _.

(** [current_depth] of single-tree pipelines, tree_iterators/mod.rs 43-45. *)
Definition tree_depth (path : list N) : Res N := Ok (N.of_nat (length path)).

(** A whole chain of stages on top of a first iterator.  [depth_of] is [current_depth] of the trait and [start] what
    the [PrunePath] adapter puts in its vectors at first (nothing; collections: [[0]]). *)
Section Chain.
  Variable depth_of : list N -> Res N.
  Variable start : list N.
  Context {V : Type} (P : pipe V).

  Fixpoint run_chain {A} (c : chain V A) : pipe A :=
    match c in chain _ A return pipe A with
    | c_start => P
    | c_map c' g f => map_tree (run_chain c') f g
    | c_prune c' g f => prune_from (run_chain c') (fun g _ a => f g a) [] g
    | c_prune_path c' g f => prune_from (run_chain c') f start g
    | c_prune_depth c' d => prune_depth (run_chain c') depth_of d
    end.

  Fixpoint run_chain_binary {A} (c : chain V A) : pipe A :=
    match c in chain _ A return pipe A with
    | c_start => P
    | c_map c' g f => map_tree (run_chain_binary c') f g
    | c_prune c' g f => bprune (run_chain_binary c') (fun g _ a => f g a) g
    | c_prune_path c' g f => bprune (run_chain_binary c') f g
    | c_prune_depth c' d => prune_depth (run_chain_binary c') depth_of d
    end.

  (** The states of the closures inside such an object. *)
  Fixpoint closures {A} (c : chain V A) : p_state (run_chain c) -> clos c :=
    match c in chain _ A return p_state (run_chain c) -> clos c with
    | c_start => fun _ => tt
    | c_map c' g f => fun s => (closures c' (fst s), snd s)
    | c_prune c' g f => fun s => (closures c' (pr_inner s), pr_clos s)
    | c_prune_path c' g f => fun s => (closures c' (pr_inner s), pr_clos s)
    | c_prune_depth c' d => fun s => closures c' s
    end.

  Fixpoint closures_binary {A} (c : chain V A) : p_state (run_chain_binary c) -> clos c :=
    match c in chain _ A return p_state (run_chain_binary c) -> clos c with
    | c_start => fun _ => tt
    | c_map c' g f => fun s => (closures_binary c' (fst s), snd s)
    | c_prune c' g f => fun s => (closures_binary c' (fst s), snd s)
    | c_prune_path c' g f => fun s => (closures_binary c' (fst s), snd s)
    | c_prune_depth c' d => fun s => closures_binary c' s
    end.
End Chain.

(** Chains on one tree. *)
Definition tree_chain {V A} (P : pipe V) (c : chain V A) : pipe A := run_chain tree_depth [] P c.
Definition btree_chain {V A} (P : pipe V) (c : chain V A) : pipe A := run_chain_binary tree_depth P c.

(** ** The end of a pipeline: collect_tree, fold_tree, fold_path

    Each returns its result and the pipeline's final state (which Rust drops: it is kept here because it contains the
    closures' final states). *)
Section Collect.
  Context {A : Type}.
  Variable P : pipe A.

  (** One turn of the inner [while], tree_iterators/mod.rs 297-305 and 315-323: the top of the stack becomes the last
      child of the one below. *)
  Definition attach_top (stack : list (tree A)) : Res (list (tree A)) :=
    match stack with
    | popped :: TNode v cs :: rest => Ok (TNode v (cs ++ [popped]) :: rest)
    | _ => Panic
    end.

  (** [while keeping_stack.len() > depth]. *)
  Definition close_to (depth : nat) (fuel : nat) (stack : list (tree A)) : Res (list (tree A)) :=
    loop (fun _ st => if depth <? length st then st' <- attach_top st ;; Ok (inl st') else Ok (inr st)) fuel stack.

  (** [while let Some(item) = self.next()], 295-311. *)
  Definition collect_body (fuel : nat) (s : p_state P * list (tree A))
    : Res (p_state P * list (tree A) + p_state P * list (tree A)) :=
    let '(i, stack) := s in
    '(o, i) <- p_next P fuel i ;;
    match o with
    | None => Ok (inr (i, stack))
    | Some item =>
        stack <- close_to (length (p_path P i)) fuel stack ;;
        Ok (inl (i, TNode item [] :: stack))
    end.

  (** [TreeIterator::collect_tree], tree_iterators/mod.rs 293-327. *)
  Definition collect_tree (fuel : nat) : Res (option (tree A) * p_state P) :=
    '(i, stack) <- loop collect_body fuel (p_init P, []) ;;
    stack <- close_to 1 fuel stack ;;
    Ok (hd_error stack, i).

  (** [match popped.0 { 0 => .. left, 1 => .. right, _ => unreachable!() }], 575-581 and 608-614. *)
  Definition set_child (slot : N) (t : btree A) (child : btree A) : Res (btree A) :=
    match t with
    | BNode v l r =>
        if (slot =? 0)%N then Ok (BNode v (Some child) r)
        else if (slot =? 1)%N then Ok (BNode v l (Some child))
        else Panic
    end.

  Definition battach_top (stack : list (N * btree A)) : Res (list (N * btree A)) :=
    match stack with
    | (slot, popped) :: (slot', t) :: rest => t' <- set_child slot t popped ;; Ok ((slot', t') :: rest)
    | _ => Panic
    end.

  Definition bclose_to (depth : nat) (fuel : nat) (stack : list (N * btree A)) : Res (list (N * btree A)) :=
    loop (fun _ st => if depth <? length st then st' <- battach_top st ;; Ok (inl st') else Ok (inr st)) fuel stack.

  (** 566-596; the slot is [current_path().last().copied().unwrap_or_default()]. *)
  Definition bcollect_body (fuel : nat) (s : p_state P * list (N * btree A))
    : Res (p_state P * list (N * btree A) + p_state P * list (N * btree A)) :=
    let '(i, stack) := s in
    '(o, i) <- p_next P fuel i ;;
    match o with
    | None => Ok (inr (i, stack))
    | Some item =>
        stack <- bclose_to (length (p_path P i)) fuel stack ;;
        Ok (inl (i, (last (p_path P i) 0%N, BNode item None None) :: stack))
    end.

  (** [BinaryTreeIterator::collect_tree], tree_iterators/mod.rs 564-616. *)
  Definition bcollect_tree (fuel : nat) : Res (option (btree A) * p_state P) :=
    '(i, stack) <- loop bcollect_body fuel (p_init P, []) ;;
    stack <- bclose_to 1 fuel stack ;;
    Ok (option_map snd (hd_error stack), i).
End Collect.

Section Folds.
  Context {A G O : Type}.
  Variable P : pipe A.

  (** State of [fold_tree]: closure state, inversion_stack, folded_so_far (tops first). *)
  Definition fold_st : Type := G * list A * list (list O).

  Variable f : G -> list O -> A -> G * O.
  (** One turn of the inner [while], tree_iterators/mod.rs 386-391 and 397-402. *)
  Definition fold_top (st : fold_st) : Res fold_st :=
    let '(g, values, folded) := st in
    match folded with
    | [] => Panic
    | items :: folded =>
        match values with
        | [] => Panic
        | value :: values =>
            let '(g, r) := f g items value in
            match folded with
            | [] => Panic
            | last :: rest => Ok (g, values, (last ++ [r]) :: rest)
            end
        end
    end.
  Definition fold_to (depth : nat) (fuel : nat) (st : fold_st) : Res fold_st :=
    loop (fun _ st => if depth <? length (snd st) then st' <- fold_top st ;; Ok (inl st') else Ok (inr st)) fuel st.

  (** 385-395. *)
  Definition fold_body (fuel : nat) (s : p_state P * fold_st) : Res (p_state P * fold_st + p_state P * fold_st) :=
    let '(i, st) := s in
    '(o, i) <- p_next P fuel i ;;
    match o with
    | None => Ok (inr (i, st))
    | Some item =>
        '(g, values, folded) <- fold_to (length (p_path P i)) fuel st ;;
        Ok (inl (i, (g, item :: values, [] :: folded)))
    end.

  (** [TreeIterator::fold_tree] tree_iterators/mod.rs 379-407; the last lines are [inversion_stack.pop().map(|root|
      f(folded_so_far.pop().unwrap_or_default(), root))]. *)
  Definition fold_tree (g : G) (fuel : nat) : Res (option O * G * p_state P) :=
    '(i, st) <- loop fold_body fuel (p_init P, (g, [], [])) ;;
    '(g, values, folded) <- fold_to 1 fuel st ;;
    match values with
    | [] => Ok (None, g, i)
    | value :: _ => let '(g, r) := f g (hd [] folded) value in Ok (Some r, g, i)
    end.
End Folds.

Section FoldPaths.
  Context {A G O : Type}.
  Variable P : pipe A.

  (** State of [fold_path]: closure state, inversion_stack, folded_so_far, paths (tops first; [acc] is the type of
      an entry of folded_so_far). *)
  Definition foldp_st (acc : Type) : Type := G * list A * list acc * list N.

  Section Nary.
    Variable f : G -> list O -> list N -> A -> G * O.
    (** tree_iterators/mod.rs 420-426 and 436-442. *)
    Definition foldp_top (st : foldp_st (list O)) : Res (foldp_st (list O)) :=
      let '(g, values, folded, paths) := st in
      match folded with
      | [] => Panic
      | items :: folded =>
          match values with
          | [] => Panic
          | value :: values =>
              let '(g, r) := f g items (rev paths) value in
              match folded with
              | [] => Panic
              | last :: rest => Ok (g, values, (last ++ [r]) :: rest, tl paths)
              end
          end
      end.
    Definition foldp_to (depth : nat) (fuel : nat) (st : foldp_st (list O)) : Res (foldp_st (list O)) :=
      loop (fun _ st => if depth <? length (snd (fst st)) then st' <- foldp_top st ;; Ok (inl st') else Ok (inr st)) fuel st.

    (** 418-433. *)
    Definition foldp_body (fuel : nat) (s : p_state P * foldp_st (list O))
      : Res (p_state P * foldp_st (list O) + p_state P * foldp_st (list O)) :=
      let '(i, st) := s in
      '(o, i) <- p_next P fuel i ;;
      match o with
      | None => Ok (inr (i, st))
      | Some item =>
          let depth := length (p_path P i) in
          '(g, values, folded, paths) <- foldp_to depth fuel st ;;
          paths <- (if length paths <? depth then seg <- unwrap (hd_error (rev (p_path P i))) ;; Ok (seg :: paths)
                    else Ok paths) ;;
          Ok (inl (i, (g, item :: values, [] :: folded, paths)))
      end.

    (** [TreeIterator::fold_path] tree_iterators/mod.rs 412-446. *)
    Definition fold_path (g : G) (fuel : nat) : Res (option O * G * p_state P) :=
      '(i, st) <- loop foldp_body fuel (p_init P, (g, [], [], [])) ;;
      '(g, values, folded, _) <- foldp_to 1 fuel st ;;
      match values with
      | [] => Ok (None, g, i)
      | value :: _ => let '(g, r) := f g (hd [] folded) [] value in Ok (Some r, g, i)
      end.
  End Nary.

  Section Binary.
    Variable f : G -> option O * option O -> list N -> A -> G * O.
    (** [array[slot] = Some(folded)] on an array of two. *)
    Definition set_slot (slot : N) (arr : option O * option O) (r : O) : Res (option O * option O) :=
      if (slot =? 0)%N then Ok (Some r, snd arr)
      else if (slot =? 1)%N then Ok (fst arr, Some r)
      else Panic.

    (** tree_iterators/mod.rs 690-696 and 706-712. *)
    Definition bfoldp_top (st : foldp_st (option O * option O)) : Res (foldp_st (option O * option O)) :=
      let '(g, values, folded, paths) := st in
      match folded with
      | [] => Panic
      | items :: folded =>
          match values with
          | [] => Panic
          | value :: values =>
              let '(g, r) := f g items (rev paths) value in
              match paths with
              | [] => Panic
              | seg :: paths =>
                  match folded with
                  | [] => Panic
                  | last :: rest => last <- set_slot seg last r ;; Ok (g, values, last :: rest, paths)
                  end
              end
          end
      end.
    Definition bfoldp_to (depth : nat) (fuel : nat) (st : foldp_st (option O * option O))
      : Res (foldp_st (option O * option O)) :=
      loop (fun _ st => if depth <? length (snd (fst st)) then st' <- bfoldp_top st ;; Ok (inl st') else Ok (inr st)) fuel st.

    (** 688-703. *)
    Definition bfoldp_body (fuel : nat) (s : p_state P * foldp_st (option O * option O))
      : Res (p_state P * foldp_st (option O * option O) + p_state P * foldp_st (option O * option O)) :=
      let '(i, st) := s in
      '(o, i) <- p_next P fuel i ;;
      match o with
      | None => Ok (inr (i, st))
      | Some item =>
          let depth := length (p_path P i) in
          '(g, values, folded, paths) <- bfoldp_to depth fuel st ;;
          paths <- (if length paths <? depth then seg <- unwrap (hd_error (rev (p_path P i))) ;; Ok (seg :: paths)
                    else Ok paths) ;;
          Ok (inl (i, (g, item :: values, (None, None) :: folded, paths)))
      end.

    (** [BinaryTreeIterator::fold_path] tree_iterators/mod.rs 682-716. *)
    Definition bfold_path (g : G) (fuel : nat) : Res (option O * G * p_state P) :=
      '(i, st) <- loop bfoldp_body fuel (p_init P, (g, [], [], [])) ;;
      '(g, values, folded, _) <- bfoldp_to 1 fuel st ;;
      match values with
      | [] => Ok (None, g, i)
      | value :: _ => let '(g, r) := f g (hd (None, None) folded) [] value in Ok (Some r, g, i)
      end.
  End Binary.

  (** [BinaryTreeIterator::fold_tree] tree_iterators/mod.rs 670-677. *)
  Definition bfold_tree (f : G -> option O * option O -> A -> G * O) : G -> nat -> Res (option O * G * p_state P) :=
    bfold_path (fun g items _ a => f g items a).
End FoldPaths.

(** ** The whole-tree methods of the node traits *)

(** [.unwrap()] / [.expect(..)] of the first component of a result. *)
Definition unwrap_fst {A S} (m : Res (option A * S)) : Res (A * S) :=
  '(o, s) <- m ;; a <- unwrap o ;; Ok (a, s).
Definition unwrap_fst2 {A G S} (m : Res (option A * G * S)) : Res (A * G * S) :=
  '(o, g, s) <- m ;; a <- unwrap o ;; Ok (a, g, s).

Section Ops.
  Context {Nd V : Type}.
  Variable gvc : Nd -> V * list Nd.

  (** [map] prelude.rs 1199-1204 ([map_mut] 2308-2313, [map_ref] 3411-3416). *)
  Definition op_map {B G} (f : G -> V -> G * B) (g : G) (n : Nd) (fuel : nat) :=
    unwrap_fst (collect_tree (map_tree (into_pipeline gvc n) f g) fuel).
  (** [prune] 1005-1010 ([prune_mut] 2114, [prune_ref] 3217). *)
  Definition op_prune {G} (f : G -> V -> G * bool) (g : G) (n : Nd) (fuel : nat) :=
    collect_tree (prune_from (into_pipeline gvc n) (fun g _ v => f g v) [] g) fuel.
  (** [prune_path] 1075-1080 (2184, 3287). *)
  Definition op_prune_path {G} (f : G -> list N -> V -> G * bool) (g : G) (n : Nd) (fuel : nat) :=
    collect_tree (prune_from (into_pipeline gvc n) f [] g) fuel.
  (** [prune_depth] 1138-1143 (2247, 3350). *)
  Definition op_prune_depth (d : N) (n : Nd) (fuel : nat) :=
    unwrap_fst (collect_tree (prune_depth (into_pipeline gvc n) tree_depth d) fuel).
  (** [fold] 1249-1254 (2358, 3461). *)
  Definition op_fold {G O} (f : G -> list O -> V -> G * O) (g : G) (n : Nd) (fuel : nat) :=
    unwrap_fst2 (fold_tree (into_pipeline gvc n) f g fuel).
  (** [fold_path] 1259-1264 (2368, 3471). *)
  Definition op_fold_path {G O} (f : G -> list O -> list N -> V -> G * O) (g : G) (n : Nd) (fuel : nat) :=
    unwrap_fst2 (fold_path (into_pipeline gvc n) f g fuel).
End Ops.

Section BinaryOps.
  Context {Nd V : Type}.
  Variable gvcb : Nd -> V * (option Nd * option Nd).

  (** [map] prelude.rs 668-673 ([map_mut] 1778, [map_ref] 2884). *)
  Definition bop_map {B G} (f : G -> V -> G * B) (g : G) (n : Nd) (fuel : nat) :=
    unwrap_fst (bcollect_tree (map_tree (into_pipeline_binary gvcb n) f g) fuel).
  (** [prune] 472-477 (1582, 2688). *)
  Definition bop_prune {G} (f : G -> V -> G * bool) (g : G) (n : Nd) (fuel : nat) :=
    bcollect_tree (bprune (into_pipeline_binary gvcb n) (fun g _ v => f g v) g) fuel.
  (** [prune_path] 607-612 (1652, 2758). *)
  Definition bop_prune_path {G} (f : G -> list N -> V -> G * bool) (g : G) (n : Nd) (fuel : nat) :=
    bcollect_tree (bprune (into_pipeline_binary gvcb n) f g) fuel.
  (** [prune_depth] 537-542 (1717, 2823). *)
  Definition bop_prune_depth (d : N) (n : Nd) (fuel : nat) :=
    unwrap_fst (bcollect_tree (prune_depth (into_pipeline_binary gvcb n) tree_depth d) fuel).
  (** [fold] 719-726 (1829, 2935). *)
  Definition bop_fold {G O} (f : G -> option O * option O -> V -> G * O) (g : G) (n : Nd) (fuel : nat) :=
    unwrap_fst2 (bfold_tree (into_pipeline_binary gvcb n) f g fuel).
  (** [fold_path] 731-738 (1839, 2945). *)
  Definition bop_fold_path {G O} (f : G -> option O * option O -> list N -> V -> G * O) (g : G) (n : Nd) (fuel : nat) :=
    unwrap_fst2 (bfold_path (into_pipeline_binary gvcb n) f g fuel).
End BinaryOps.
