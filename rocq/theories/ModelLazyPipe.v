(** * ModelLazyPipe: the start of a pipeline over children iterators of any kind, with a record of the calls of
    [get_value_and_children].

    As in ModelLazy, a children iterator is a state of any type [It] and [poll] is its [Iterator::next].  The code is that of
    [pt_next_with] of ModelPipe; the stages and the ends of pipelines are those of ModelPipe. *)
From Verif Require Import Prelim Spec SpecPipe ModelNode ModelPre ModelPipe.

Section LazyTracking.
  Context {Nd V C It : Type}.
  Variable gv : Nd -> V * C.               (* get_value_and_children *)
  Variable into_iter : C -> It.            (* IntoIterator::into_iter of the children *)

  (** [OwnedDFSPreorderIteratorWithPathTracking] dfs_preorder_iterators/owned.rs 197-205 (binary 503-511), and the log, last
      call first; the path has its last segment first.  The children of the current node are still a container ([deck],
      [on_deck_into_iterator]). *)
  Record lptrack := mkLpt {
    lpt_log : list Nd;
    lpt_root : option Nd;
    lpt_path : list N;
    lpt_deck : option C;
    lpt_stack : list It
  }.

  (** [new] owned.rs 211-218 (binary 517-524). *)
  Definition lpt_new (root : Nd) : lptrack := mkLpt [] (Some root) [] None [].

  (** The search loop, mod.rs 49-62. *)
  Definition lpt_body (poll : It -> option Nd * It) (_ : nat) (s : list It * list N)
    : Res (list It * list N + option Nd * (list It * list N)) :=
    let '(stack, path) := s in
    match stack with
    | [] => Ok (inr (None, ([], path)))
    | top :: rest =>
        match poll top with
        | (Some n, top') => path <- incr_last path ;; Ok (inr (Some n, (top' :: rest, path)))
        | (None, _) => Ok (inl (rest, tl path))
        end
    end.

  (** [next] mod.rs 37-70 (binary 75-112): only here are the children of the node shown last turned into an iterator. *)
  Definition lpt_next_with (body : nat -> list It * list N -> Res (list It * list N + option Nd * (list It * list N)))
      (fuel : nat) (s : lptrack) : Res (option V * lptrack) :=
    match lpt_root s with
    | Some root =>
        let '(value, children) := gv root in
        Ok (Some value, mkLpt (root :: lpt_log s) None (lpt_path s) (Some children) (lpt_stack s))
    | None =>
        let '(stack, path) :=
          match lpt_deck s with
          | Some children => (into_iter children :: lpt_stack s, usize_max :: lpt_path s)
          | None => (lpt_stack s, lpt_path s)
          end in
        '(next, (stack, path)) <- loop body fuel (stack, path) ;;
        match next with
        | None => Ok (None, mkLpt (lpt_log s) None path None stack)
        | Some node =>
            let '(value, children) := gv node in
            Ok (Some value, mkLpt (node :: lpt_log s) None path (Some children) stack)
        end
    end.

  (** [current_path] owned.rs 234-236 (binary 540-542). *)
  Definition lpt_current_path (s : lptrack) : list N := rev (lpt_path s).

  (** [prune_current_subtree] owned.rs 238-240 (binary 544-546). *)
  Definition lpt_prune (s : lptrack) : lptrack := mkLpt (lpt_log s) (lpt_root s) (lpt_path s) None (lpt_stack s).

  Definition lpt_pipe (body : nat -> list It * list N -> Res (list It * list N + option Nd * (list It * list N))) (n : Nd) : pipe V :=
    mkPipe lptrack (lpt_new n) (lpt_next_with body) lpt_current_path lpt_prune.
End LazyTracking.
Arguments lptrack : clear implicits.

(** [into_pipeline] prelude.rs 938-940, [into_pipeline_mut] 2045, [into_pipeline_ref] 3148. *)
Definition lazy_pipeline {Nd V C It} (gv : Nd -> V * C) (into_iter : C -> It) (poll : It -> option Nd * It) (n : Nd) : pipe V :=
  lpt_pipe gv into_iter (lpt_body poll) n.

(** Binary: prelude.rs 401-403, 1509, 2615.  The two children come in an array, so only the depth is unbounded. *)
Definition lazy_pipeline_binary {Nd V} (gvcb : Nd -> V * (option Nd * option Nd)) (n : Nd) : pipe V :=
  lpt_pipe gvcb pair_iter ptb_body n.

(** ** Collections *)
Section LazyCollTracking.
  Context {Nd V C It : Type}.
  (** [next] of the single-tree path-tracking iterator. *)
  Variable next : nat -> lptrack Nd C It -> Res (option V * lptrack Nd C It).

  (** [OwnedDFSPreorderCollectionIteratorWithPathTracking] dfs_preorder_iterators/owned.rs 54-61 (binary 349-356), as [ctrack] of
      ModelPipeColl. *)
  Record lctrack := mkLct {
    lct_trees : list Nd;
    lct_count : N;
    lct_cur : option (lptrack Nd C It)
  }.

  (** The calls of [get_value_and_children] on the nodes of all trees so far, last call first. *)
  Definition log_of (cur : option (lptrack Nd C It)) : list Nd := match cur with Some it => lpt_log it | None => [] end.
  Definition lct_log (s : lctrack) : list Nd := log_of (lct_cur s).

  (** [new] owned.rs 68-73 (363-368). *)
  Definition lct_new (trees : list Nd) : lctrack := mkLct trees 0%N None.

  (** owned.rs 91-100; the record of the calls is handed on to the iterator of the next tree. *)
  Definition lct_take (trees : list Nd) (count : N) (cur : option (lptrack Nd C It)) : Res (lctrack + option V * lctrack) :=
    match trees with
    | [] => Ok (inr (None, mkLct [] count cur))
    | t :: rest => count' <- checked_succ count ;; Ok (inl (mkLct rest count' (Some (mkLpt (log_of cur) (Some t) [count] None []))))
    end.

  (** The loop of [next], owned.rs 84-101 (380-396). *)
  Definition lct_body (fuel : nat) (s : lctrack) : Res (lctrack + option V * lctrack) :=
    match lct_cur s with
    | Some it =>
        '(o, it) <- next fuel it ;;
        match o with
        | Some v => Ok (inr (Some v, mkLct (lct_trees s) (lct_count s) (Some it)))
        | None => lct_take (lct_trees s) (lct_count s) (Some it)
        end
    | None => lct_take (lct_trees s) (lct_count s) None
    end.
  Definition lct_next (fuel : nat) (s : lctrack) : Res (option V * lctrack) := loop lct_body fuel s.

  (** [current_path] owned.rs 114-119 (406-411). *)
  Definition lct_path (s : lctrack) : list N :=
    match lct_cur s with Some it => lpt_current_path it | None => [] end.

  (** [prune_current_subtree] owned.rs 121-125 (413-417). *)
  Definition lct_prune (s : lctrack) : lctrack :=
    mkLct (lct_trees s) (lct_count s) (match lct_cur s with Some it => Some (lpt_prune it) | None => None end).
End LazyCollTracking.
Arguments lctrack : clear implicits.

Definition lct_pipe {Nd V C It} (next : nat -> lptrack Nd C It -> Res (option V * lptrack Nd C It)) (trees : list Nd) : pipe V :=
  mkPipe (lctrack Nd C It) (lct_new trees) (lct_next next) lct_path lct_prune.

(** [into_pipeline] of a collection, prelude.rs 3600-3602 ([into_pipeline_mut] 4150, [into_pipeline_ref] 4704). *)
Definition lazy_pipeline_each {Nd V C It} (gv : Nd -> V * C) (into_iter : C -> It) (poll : It -> option Nd * It) (trees : list Nd) : pipe V :=
  lct_pipe (lpt_next_with gv into_iter (lpt_body poll)) trees.

(** Binary: prelude.rs 3865-3872 (4418, 4971). *)
Definition lazy_pipeline_each_binary {Nd V} (gvcb : Nd -> V * (option Nd * option Nd)) (trees : list Nd) : pipe V :=
  lct_pipe (lpt_next_with gvcb pair_iter ptb_body) trees.
