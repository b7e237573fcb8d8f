(** * ModelMapPathPrune: map_path behind an n-ary [prune] or [prune_path], with the memory of the path vector.

    The n-ary [Prune] and [PrunePath] keep a path vector of their own, and the pointer of a [map_path] behind them points
    into the vector of the last one.  That vector is a buffer here, as in ModelMapPath; all others are lists, because no
    pointer into them is kept. *)
From Verif Require Import Prelim Spec SpecPipe ModelNode ModelPre ModelPipe ModelPipeColl ModelMapPath.

Section VecPrune.
  Variable grow : nat -> nat.

  (** [k] times [v.push(0)]. *)
  Fixpoint vec_push_zeros (k : nat) (v : vec) : vec :=
    match k with 0 => v | S k' => vec_push_zeros k' (vec_push grow v 0%N) end.

  (** [Vec::truncate]: only the length changes. *)
  Definition vec_truncate (len : nat) (v : vec) : vec := mkVec (v_buf v) (Nat.min len (v_len v)) (v_cap v) (v_id v).

  (** [if let Some(last) = v.last_mut() { *last += 1 }], as [succ_last] of ModelPipe. *)
  Definition vec_succ_last (v : vec) : Res vec :=
    match v_len v with
    | 0 => Ok v
    | S k => y <- checked_succ (nth k (v_buf v) 0%N) ;;
        Ok (mkVec (firstn k (v_buf v) ++ y :: skipn (S k) (v_buf v)) (v_len v) (v_cap v) (v_id v))
    end.

  (** [Vec::new] and pushes of the elements of [start]. *)
  Definition vec_from (start : list N) : vec := fold_left (vec_push grow) start (vec_new 0).

  (** [clear] and [shrink_to_fit]: the buffer is freed. *)
  Definition vec_release (v : vec) : vec := vec_new (S (v_id v)).

  Section Prune.
    Context {A G : Type}.
    Variable inner : pipe A.
    Variable f : G -> list N -> A -> G * bool.

    (** tree_iterators/prune.rs 7-18, prune_path.rs 7-18, as [prune_st] of ModelPipe. *)
    Record vprune_st := mkVprune {
      vp_inner : p_state inner;
      vp_clos : G;
      vp_pruned : list N;
      vp_path : vec
    }.

    (** prune.rs 48-65, as [prune_resize]. *)
    Definition vprune_resize (len : nat) (pruned : list N) (path : vec) : Res (list N * vec) :=
      if length pruned <? len then
        Ok (pruned ++ repeat 0%N (len - length pruned), vec_push_zeros (len - length pruned) path)
      else if len <? length pruned then
        path' <- vec_succ_last (vec_truncate len path) ;; Ok (firstn len pruned, path')
      else Ok (pruned, path).

    (** prune.rs 44-86 (prune_path.rs 44-86), as [prune_body]. *)
    Definition vprune_body (fuel : nat) (s : vprune_st) : Res (vprune_st + option A * vprune_st) :=
      '(o, i) <- p_next inner fuel (vp_inner s) ;;
      match o with
      | None => Ok (inr (None, mkVprune i (vp_clos s) [] (vec_release (vp_path s))))
      | Some item =>
          '(pruned, path) <- vprune_resize (length (p_path inner i)) (vp_pruned s) (vp_path s) ;;
          let '(g, cut) := f (vp_clos s) (p_path inner i) item in
          if cut then
            pruned <- (if 0 <? v_len path then succ_at (v_len path - 1) pruned else Ok pruned) ;;
            Ok (inl (mkVprune (p_prune inner i) g pruned path))
          else Ok (inr (Some item, mkVprune i g pruned path))
      end.
    Definition vprune_next (fuel : nat) (s : vprune_st) : Res (option A * vprune_st) := loop vprune_body fuel s.

    (** [new] prune.rs 25-34 (prune_path.rs 25-34), where the vectors are empty; only that of CollectionPrunePath begins
        with a 0 (tree_collection_iterators/prune_path.rs 25-39), see [start] of [run_chain]; [current_path],
        [prune_current_subtree] prune.rs 95-101. *)
    Definition vprune (start : list N) (g : G) : pipe A :=
      mkPipe vprune_st (mkVprune (p_init inner) g start (vec_from start)) vprune_next (fun s => vec_list (vp_path s))
        (fun s => mkVprune (p_prune inner (vp_inner s)) (vp_clos s) (vp_pruned s) (vp_path s)).
  End Prune.
  Global Arguments mkVprune {A G inner} _ _ _ _.
  Global Arguments vp_inner {A G inner} _.
  Global Arguments vp_clos {A G inner} _.
  Global Arguments vp_pruned {A G inner} _.
  Global Arguments vp_path {A G inner} _.

  (** A pipeline with the vector that [current_path()] is a slice of. *)
  Record mpipe (A : Type) : Type := mkMpipe { mp_pipe : pipe A; mp_vec : p_state mp_pipe -> vec }.
  Global Arguments mkMpipe {A} _ _.
  Global Arguments mp_pipe {A} _.
  Global Arguments mp_vec {A} _ _.

  (** A chain of stages on top of [P], as [run_chain] of ModelPipe.  [map] and [prune_depth] hand on the path of the
      stage before (tree_iterators/map.rs 49-51, prune_depth.rs 39-44).  Only for chains with a [prune] or [prune_path]: for
      the others the vector is that of [P] (ModelMapPath). *)
  Section Chain.
    Variable depth_of : list N -> Res N.
    Variable start : list N.
    Context {V : Type} (P : pipe V).

    Fixpoint mem_chain {A : Type} (c : chain V A) : mpipe A :=
      match c in chain _ A return mpipe A with
      | c_start => mkMpipe P (fun _ => vec_new 0)
      | c_map c' g f => let Q := mem_chain c' in mkMpipe (map_tree (mp_pipe Q) f g) (fun s => mp_vec Q (fst s))
      | c_prune c' g f => mkMpipe (vprune (run_chain depth_of start P c') (fun g _ a => f g a) [] g) vp_path
      | c_prune_path c' g f => mkMpipe (vprune (run_chain depth_of start P c') f start g) vp_path
      | c_prune_depth c' d => let Q := mem_chain c' in mkMpipe (prune_depth (mp_pipe Q) depth_of d) (mp_vec Q)
      end.

    (** The states of the closures (an accessor, as [closures] of ModelPipe). *)
    Fixpoint mem_closures {A : Type} (c : chain V A) : p_state (mp_pipe (mem_chain c)) -> clos c :=
      match c in chain _ A return p_state (mp_pipe (mem_chain c)) -> clos c with
      | c_start => fun _ => tt
      | c_map c' g f => fun s => (mem_closures c' (fst s), snd s)
      | c_prune c' g f => fun s => (closures depth_of start P c' (vp_inner s), vp_clos s)
      | c_prune_path c' g f => fun s => (closures depth_of start P c' (vp_inner s), vp_clos s)
      | c_prune_depth c' d => fun s => mem_closures c' s
      end.

    (** The stages [c1] and [map_path(f)] (tree_iterators/map_path.rs 39-45, tree_collection_iterators/map_path.rs 39-43). *)
    Definition map_path_behind {A B G} (c1 : chain V A) (f : G -> list N -> A -> G * B) (g : G) : pipe B :=
      let Q := mem_chain c1 in
      map_path (mp_pipe Q) (fun s => vec_slice (mp_vec Q s)) (fun s => vec_read (mp_vec Q s)) f g.
  End Chain.

  (** [into_pipeline()], the stages [c1], and [map_path(f)]: one tree. *)
  Definition map_path_after {Nd V A B G} (gvc : Nd -> V * list Nd) (n : Nd) (c1 : chain V A) (f : G -> list N -> A -> G * B) (g : G) : pipe B :=
    map_path_behind tree_depth [] (into_pipeline gvc n) c1 f g.

  (** Collections: [prune] tree_collection_iterators/prune.rs, [prune_path] prune_path.rs, [map_path] map_path.rs; the
      bodies of [next] are those of the stages of one tree.  The path vector of a prune stage lives as long as the stage,
      not as long as one of the trees. *)
  Definition map_path_each_after {Nd V A B G} (gvc : Nd -> V * list Nd) (trees : list Nd) (c1 : chain V A) (f : G -> list N -> A -> G * B) (g : G) : pipe B :=
    map_path_behind coll_depth [0%N] (into_pipeline_each gvc trees) c1 f g.
End VecPrune.
