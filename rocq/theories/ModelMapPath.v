(** * ModelMapPath: map_path and map_path_each, with the memory of the path vector.

    [MapPath::next] keeps a raw pointer to the path vector across a call that changes the vector, so the vector can not
    be just a list here.  It is a buffer, and a pointer into it is good until the buffer is reallocated or dropped.
    Reading through a pointer whose buffer is gone is [UB].  (Rust's aliasing rules forbid more than that; only freed
    memory counts as [UB] here.) *)
From Verif Require Import Prelim Spec SpecPipe ModelNode ModelPre ModelPipe ModelPipeColl.

(** ** [Vec<usize>] *)

(** The elements written so far (also those after the length, which [pop] leaves behind), the length, the capacity,
    and which allocation the buffer is. *)
Record vec := mkVec { v_buf : list N; v_len : nat; v_cap : nat; v_id : nat }.

Definition vec_list (v : vec) : list N := firstn (v_len v) (v_buf v).

(** [Vec::new()]: nothing allocated. *)
Definition vec_new (id : nat) : vec := mkVec [] 0 0 id.

Section Vec.
  (** The capacity after growing a full vector.  The standard library's is [max (2 * c) 4]. *)
  Variable grow : nat -> nat.

  (** [Vec::push]: a full vector moves to a new buffer, and the old one is freed. *)
  Definition vec_push (v : vec) (x : N) : vec :=
    if v_len v <? v_cap v
    then mkVec (firstn (v_len v) (v_buf v) ++ x :: skipn (S (v_len v)) (v_buf v)) (S (v_len v)) (v_cap v) (v_id v)
    else mkVec (vec_list v ++ [x]) (S (v_len v)) (grow (v_cap v)) (S (v_id v)).

  (** [Vec::pop]: only the length changes. *)
  Definition vec_pop (v : vec) : vec := mkVec (v_buf v) (pred (v_len v)) (v_cap v) (v_id v).

  (** [let last = v.last_mut().expect(..); *last = last.wrapping_add(1)]. *)
  Definition vec_incr_last (v : vec) : Res vec :=
    match v_len v with
    | 0 => Panic
    | S k => Ok (mkVec (firstn k (v_buf v) ++ wrapping_succ (nth k (v_buf v) 0%N) :: skipn (S k) (v_buf v)) (v_len v) (v_cap v) (v_id v))
    end.

  (** [*const [usize]]: the buffer it points into, and the length.  A slice of length 0 may dangle. *)
  Definition slice : Type := nat * nat.
  Definition vec_slice (v : vec) : slice := (v_id v, v_len v).
  Definition vec_read (v : vec) (s : slice) : Res (list N) :=
    match snd s with
    | 0 => Ok []
    | S _ => if fst s =? v_id v then Ok (firstn (snd s) (v_buf v)) else UB
    end.

  (** ** The path-tracking iterators, on such a vector *)
  Section PathTracking.
    Context {Nd V : Type}.

    (** dfs_preorder_iterators/owned.rs 197-205 (binary 503-511), as [ptrack] of ModelPipe. *)
    Record vtrack (I C : Type) := mkVt {
      vt_root : option Nd;
      vt_path : vec;
      vt_deck : option C;
      vt_stack : list (list I)
    }.
    Global Arguments mkVt {I C} _ _ _ _.
    Global Arguments vt_root {I C} _.
    Global Arguments vt_path {I C} _.
    Global Arguments vt_deck {I C} _.
    Global Arguments vt_stack {I C} _.

    (** [new] owned.rs 211-218 (517-524). *)
    Definition vt_new {I C} (root : Nd) (path : vec) : vtrack I C := mkVt (Some root) path None [].

    (** mod.rs 49-62, as [pt_body]. *)
    Definition vt_body (_ : nat) (s : list (list Nd) * vec) : Res (list (list Nd) * vec + option Nd * (list (list Nd) * vec)) :=
      let '(stack, path) := s in
      match stack with
      | [] => Ok (inr (None, ([], path)))
      | top :: rest =>
          match top with
          | n :: top' => path <- vec_incr_last path ;; Ok (inr (Some n, (top' :: rest, path)))
          | [] => Ok (inl (rest, vec_pop path))
          end
      end.

    (** mod.rs 89-96, as [prec_scan]. *)
    Fixpoint vt_scan (top : list (option Nd)) (path : vec) : Res (option Nd * list (option Nd) * vec) :=
      match top with
      | [] => Ok (None, [], path)
      | o :: top' =>
          path <- vec_incr_last path ;;
          match o with
          | Some n => Ok (Some n, top', path)
          | None => vt_scan top' path
          end
      end.

    (** mod.rs 87-104, as [ptb_body]. *)
    Definition vtb_body (_ : nat) (s : list (list (option Nd)) * vec)
      : Res (list (list (option Nd)) * vec + option Nd * (list (list (option Nd)) * vec)) :=
      let '(stack, path) := s in
      match stack with
      | [] => Ok (inr (None, ([], path)))
      | top :: rest =>
          '(found, top', path) <- vt_scan top path ;;
          match found with
          | Some n => Ok (inr (Some n, (top' :: rest, path)))
          | None => Ok (inl (rest, vec_pop path))
          end
      end.

    (** [next] mod.rs 37-70 (binary 75-112), as [pt_next_with]. *)
    Definition vt_next_with {I C} (gv : Nd -> V * C) (into_iter : C -> list I)
        (body : nat -> list (list I) * vec -> Res (list (list I) * vec + option Nd * (list (list I) * vec)))
        (fuel : nat) (s : vtrack I C) : Res (option V * vtrack I C) :=
      match vt_root s with
      | Some root =>
          let '(value, children) := gv root in
          Ok (Some value, mkVt None (vt_path s) (Some children) (vt_stack s))
      | None =>
          let '(stack, path) :=
            match vt_deck s with
            | Some children => (into_iter children :: vt_stack s, vec_push (vt_path s) usize_max)
            | None => (vt_stack s, vt_path s)
            end in
          '(next, (stack, path)) <- loop body fuel (stack, path) ;;
          match next with
          | None => Ok (None, mkVt None path None stack)
          | Some node =>
              let '(value, children) := gv node in
              Ok (Some value, mkVt None path (Some children) stack)
          end
      end.

    (** owned.rs 238-240 (544-546). *)
    Definition vt_prune {I C} (s : vtrack I C) : vtrack I C := mkVt (vt_root s) (vt_path s) None (vt_stack s).
  End PathTracking.
  Global Arguments vtrack : clear implicits.

  (** [into_pipeline] prelude.rs 938-940 (binary 401-403): [..WithPathTracking::new(self, Vec::new())]. *)
  Definition vt_pipeline {Nd V} (gvc : Nd -> V * list Nd) (n : Nd) : pipe V :=
    mkPipe (vtrack Nd Nd (list Nd)) (vt_new n (vec_new 0)) (vt_next_with gvc (fun l => l) vt_body)
      (fun s => vec_list (vt_path s)) vt_prune.
  Definition vtb_pipeline {Nd V} (gvcb : Nd -> V * (option Nd * option Nd)) (n : Nd) : pipe V :=
    mkPipe (vtrack Nd (option Nd) (option Nd * option Nd)) (vt_new n (vec_new 0)) (vt_next_with gvcb pair_iter vtb_body)
      (fun s => vec_list (vt_path s)) vt_prune.

  (** ** The path-tracking collection iterators *)
  Section CollTracking.
    Context {Nd V I C : Type}.
    Variable next : nat -> vtrack Nd I C -> Res (option V * vtrack Nd I C).

    (** owned.rs 54-61 (349-356), as [ctrack] of ModelPipeColl. *)
    Record vctrack := mkVc {
      vc_trees : list Nd;
      vc_count : N;
      vc_cur : option (vtrack Nd I C)
    }.
    Definition vc_new (trees : list Nd) : vctrack := mkVc trees 0%N None.

    (** A buffer other than the one of the iterator that is about to be dropped. *)
    Definition fresh_id (cur : option (vtrack Nd I C)) : nat :=
      match cur with Some it => S (v_id (vt_path it)) | None => 0 end.

    (** [let mut path = Vec::new(); path.push(next_tree.0); self.current_tree_iterator = Some(..)] owned.rs 91-100: the
        old iterator is dropped with its vector. *)
    Definition vc_take (trees : list Nd) (count : N) (cur : option (vtrack Nd I C)) : Res (vctrack + option V * vctrack) :=
      match trees with
      | [] => Ok (inr (None, mkVc [] count cur))
      | t :: rest =>
          count' <- checked_succ count ;;
          Ok (inl (mkVc rest count' (Some (vt_new t (vec_push (vec_new (fresh_id cur)) count)))))
      end.

    (** owned.rs 84-101 (380-396), as [ct_body]. *)
    Definition vc_body (fuel : nat) (s : vctrack) : Res (vctrack + option V * vctrack) :=
      match vc_cur s with
      | Some it =>
          '(o, it) <- next fuel it ;;
          match o with
          | Some v => Ok (inr (Some v, mkVc (vc_trees s) (vc_count s) (Some it)))
          | None => vc_take (vc_trees s) (vc_count s) (Some it)
          end
      | None => vc_take (vc_trees s) (vc_count s) None
      end.
    Definition vc_next (fuel : nat) (s : vctrack) : Res (option V * vctrack) := loop vc_body fuel s.

    (** [current_path] owned.rs 114-119 (406-411): [&[]] before the first tree. *)
    Definition vc_slice (s : vctrack) : slice :=
      match vc_cur s with Some it => vec_slice (vt_path it) | None => (0, 0) end.
    Definition vc_read (s : vctrack) (sl : slice) : Res (list N) :=
      match vc_cur s with Some it => vec_read (vt_path it) sl | None => match snd sl with 0 => Ok [] | S _ => UB end end.
    Definition vc_path (s : vctrack) : list N :=
      match vc_cur s with Some it => vec_list (vt_path it) | None => [] end.

    (** owned.rs 121-125 (413-417). *)
    Definition vc_prune (s : vctrack) : vctrack :=
      mkVc (vc_trees s) (vc_count s) (match vc_cur s with Some it => Some (vt_prune it) | None => None end).
  End CollTracking.
  Global Arguments vctrack : clear implicits.

  (** [into_pipeline] of a collection, prelude.rs 3600-3602 (binary 3865-3872). *)
  Definition vc_pipeline {Nd V} (gvc : Nd -> V * list Nd) (trees : list Nd) : pipe V :=
    mkPipe (vctrack Nd Nd (list Nd)) (vc_new trees) (vc_next (vt_next_with gvc (fun l => l) vt_body)) vc_path vc_prune.
  Definition vcb_pipeline {Nd V} (gvcb : Nd -> V * (option Nd * option Nd)) (trees : list Nd) : pipe V :=
    mkPipe (vctrack Nd (option Nd) (option Nd * option Nd)) (vc_new trees) (vc_next (vt_next_with gvcb pair_iter vtb_body)) vc_path vc_prune.

  (** ** The adapter *)
  Section MapPath.
    Context {A B G : Type}.
    Variable inner : pipe A.
    (** [self.current_path() as *const [usize]], and reading such a pointer later. *)
    Variable slice_of : p_state inner -> slice.
    Variable read : p_state inner -> slice -> Res (list N).
    Variable f : G -> list N -> A -> G * B.

    (** [MapPath::next] tree_iterators/map_path.rs 39-45 (tree_collection_iterators/map_path.rs 39-43). *)
    Definition map_path_next (fuel : nat) (s : p_state inner * G) : Res (option B * (p_state inner * G)) :=
      let path := slice_of (fst s) in
      '(o, i) <- p_next inner fuel (fst s) ;;
      match o with
      | Some value => p <- read i path ;; let '(g, b) := f (snd s) p value in Ok (Some b, (i, g))
      | None => Ok (None, (i, snd s))
      end.

    (** [current_path], [prune_current_subtree] map_path.rs 54-60. *)
    Definition map_path (g : G) : pipe B :=
      mkPipe (p_state inner * G) (p_init inner, g) map_path_next (fun s => p_path inner (fst s))
        (fun s => (p_prune inner (fst s), snd s)).
  End MapPath.

  (** ** The operations *)
  Section Ops.
    Context {Nd V B G : Type}.
    Variable f : G -> list N -> V -> G * B.

    (** [map_path] prelude.rs 1209-1214 ([map_path_mut] 2318-2323, [map_path_ref] 3421-3426); the result and the
        closure's final state. *)
    Definition op_map_path (gvc : Nd -> V * list Nd) (g : G) (n : Nd) (fuel : nat) : Res (tree B * G) :=
      '(t, s) <- unwrap_fst (collect_tree
        (map_path (vt_pipeline gvc n) (fun s => vec_slice (vt_path s)) (fun s => vec_read (vt_path s)) f g) fuel) ;;
      Ok (t, snd s).
    (** Binary: 678-683 (1788, 2894). *)
    Definition bop_map_path (gvcb : Nd -> V * (option Nd * option Nd)) (g : G) (n : Nd) (fuel : nat) : Res (btree B * G) :=
      '(t, s) <- unwrap_fst (bcollect_tree
        (map_path (vtb_pipeline gvcb n) (fun s => vec_slice (vt_path s)) (fun s => vec_read (vt_path s)) f g) fuel) ;;
      Ok (t, snd s).

    (** The pipeline of [map_path_each] prelude.rs 3791-3809 ([map_path_each_mut] 4343, [map_path_each_ref] 4897). *)
    Definition map_path_each (gvc : Nd -> V * list Nd) (g : G) (trees : list Nd) : pipe B :=
      map_path (vc_pipeline gvc trees) vc_slice vc_read f g.
    (** Binary: [map_path_each_mut] 4630-4648, [map_path_each_ref] 5179-5197.  (The owned [map_path_each] of binary
        trees, 4076-4094, takes a closure without path and calls [map_trees].) *)
    Definition bmap_path_each (gvcb : Nd -> V * (option Nd * option Nd)) (g : G) (trees : list Nd) : pipe B :=
      map_path (vcb_pipeline gvcb trees) vc_slice vc_read f g.
  End Ops.
End Vec.

(** The state of the first iterator inside a chain of stages (an accessor, as [closures] of ModelPipe). *)
Fixpoint chain_first {V A} (depth_of : list N -> Res N) (start : list N) (P : pipe V) (c : chain V A) : p_state (run_chain depth_of start P c) -> p_state P :=
  match c in chain _ A return p_state (run_chain depth_of start P c) -> p_state P with
  | c_start => fun s => s
  | c_map c' g f => fun s => chain_first depth_of start P c' (fst s)
  | c_prune c' g f => fun s => chain_first depth_of start P c' (pr_inner s)
  | c_prune_path c' g f => fun s => chain_first depth_of start P c' (pr_inner s)
  | c_prune_depth c' d => fun s => chain_first depth_of start P c' s
  end.
Fixpoint chain_first_binary {V A} (depth_of : list N -> Res N) (P : pipe V) (c : chain V A) : p_state (run_chain_binary depth_of P c) -> p_state P :=
  match c in chain _ A return p_state (run_chain_binary depth_of P c) -> p_state P with
  | c_start => fun s => s
  | c_map c' g f => fun s => chain_first_binary depth_of P c' (fst s)
  | c_prune c' g f => fun s => chain_first_binary depth_of P c' (fst s)
  | c_prune_path c' g f => fun s => chain_first_binary depth_of P c' (fst s)
  | c_prune_depth c' d => fun s => chain_first_binary depth_of P c' s
  end.

(** map_path after other stages of [into_pipeline()].  [map] and [prune_depth] hand on the path of the iterator inside
    (tree_iterators/map.rs 49-51, prune_depth.rs 39-44); so do the binary [prune] and [prune_path] (prune.rs 165-167,
    prune_path.rs 166-168).  The n-ary [prune] and [prune_path] have a path vector of their own: [map_path_on] models the
    code for [c1] without them, ModelMapPathPrune.v for [c1] with them. *)
Definition map_path_on {Nd V A B G} (grow : nat -> nat) (c1 : chain V A) (f : G -> list N -> A -> G * B) (gvc : Nd -> V * list Nd) (g : G) (n : Nd) : pipe B :=
  let P := vt_pipeline grow gvc n in
  map_path (tree_chain P c1) (fun s => vec_slice (vt_path (chain_first tree_depth [] P c1 s))) (fun s => vec_read (vt_path (chain_first tree_depth [] P c1 s))) f g.
Definition bmap_path_on {Nd V A B G} (grow : nat -> nat) (c1 : chain V A) (f : G -> list N -> A -> G * B) (gvcb : Nd -> V * (option Nd * option Nd)) (g : G) (n : Nd) : pipe B :=
  let P := vtb_pipeline grow gvcb n in
  map_path (btree_chain P c1) (fun s => vec_slice (vt_path (chain_first_binary tree_depth P c1 s))) (fun s => vec_read (vt_path (chain_first_binary tree_depth P c1 s))) f g.

(** The growth of the standard library's [Vec<usize>] (RawVec::grow_amortized: the double, at least 4). *)
Definition std_grow (c : nat) : nat := Nat.max (2 * c) 4.
