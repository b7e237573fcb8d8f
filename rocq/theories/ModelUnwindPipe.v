(** * ModelUnwindPipe: pipelines when user code in them panics (a closure, or [get_value_and_children]), the caller catches
    the panic and goes on calling [next()].

    As in ModelUnwind: every function is the one of ModelPipe with one more case where it calls user code, which ends the call
    with the state of that moment; and a stage whose inner [next()] ends with a panic ends with it too, having done
    nothing of its own.  Items are [Got] or [Unwound]. *)
From Verif Require Import Prelim Spec ModelNode ModelPre ModelUnwind SpecUnwind SpecPipe SpecUnwindPipe ModelPipe.

Section UPathTracking.
  Context {Nd V : Type}.

  (** [next] of the path-tracking preorder iterators, dfs_preorder_iterators/mod.rs 37-70 (binary 75-112): the root
      has been taken (38), or [on_deck] taken and the search done (43-62), before the method is called (39 and 66). *)
  Definition upt_next_with {I C} (gv : Nd -> option (V * C)) (into_iter : C -> list I)
      (body : nat -> list (list I) * list N -> Res (list (list I) * list N + option Nd * (list (list I) * list N)))
      (fuel : nat) (s : ptrack Nd I C) : Res (option (result V) * ptrack Nd I C) :=
    match pt_root s with
    | Some root =>
        match gv root with
        | Some (value, children) => Ok (Some (Got value), mkPt None (pt_path s) (Some children) (pt_stack s))
        | None => Ok (Some Unwound, mkPt None (pt_path s) (pt_deck s) (pt_stack s))
        end
    | None =>
        let '(stack, path) :=
          match pt_deck s with
          | Some children => (into_iter children :: pt_stack s, usize_max :: pt_path s)
          | None => (pt_stack s, pt_path s)
          end in
        '(next, (stack, path)) <- loop body fuel (stack, path) ;;
        match next with
        | None => Ok (None, mkPt None path None stack)
        | Some node =>
            match gv node with
            | Some (value, children) => Ok (Some (Got value), mkPt None path (Some children) stack)
            | None => Ok (Some Unwound, mkPt None path None stack)
            end
        end
    end.
End UPathTracking.

(** [into_pipeline] prelude.rs 938-940, 2045, 3148; binary 401-403, 1509, 2615. *)
Definition uinto_pipeline {Nd V} (gvc : Nd -> option (V * list Nd)) (n : Nd) : pipe (result V) :=
  mkPipe (ptrack Nd Nd (list Nd)) (pt_new n []) (upt_next_with gvc (fun l => l) pt_body) pt_current_path pt_prune.
Definition uinto_pipeline_binary {Nd V} (gvcb : Nd -> option (V * (option Nd * option Nd))) (n : Nd) : pipe (result V) :=
  mkPipe (ptrack Nd (option Nd) (option Nd * option Nd)) (pt_new n []) (upt_next_with gvcb pair_iter ptb_body) pt_current_path pt_prune.

Section UMap.
  Context {A B G : Type}.
  Variable inner : pipe (result A).
  Variable f : G -> A -> G * option B.

  (** [Map::next] map.rs 38-40 (tree_collection_iterators/map.rs 39-41): [self.inner.next().map(|value| (self.f)(value))]. *)
  Definition umap_next (fuel : nat) (s : p_state inner * G) : Res (option (result B) * (p_state inner * G)) :=
    '(o, i) <- p_next inner fuel (fst s) ;;
    match o with
    | Some (Got value) =>
        match f (snd s) value with
        | (g, Some b) => Ok (Some (Got b), (i, g))
        | (g, None) => Ok (Some Unwound, (i, g))
        end
    | Some Unwound => Ok (Some Unwound, (i, snd s))
    | None => Ok (None, (i, snd s))
    end.

  (** map.rs 12-28, 49-55. *)
  Definition umap_tree (g : G) : pipe (result B) :=
    mkPipe (p_state inner * G) (p_init inner, g) umap_next (fun s => p_path inner (fst s))
      (fun s => (p_prune inner (fst s), snd s)).
End UMap.

Section UPruneDepth.
  Context {A : Type}.
  Variable inner : pipe (result A).
  Variable depth_of : list N -> Res N.

  (** [PruneDepth::next] prune_depth.rs 21-31: a panic of [self.inner.next()] (23) leaves before the depth is looked at. *)
  Definition uprune_depth_next (limit : N) (fuel : nat) (s : p_state inner) : Res (option (result A) * p_state inner) :=
    '(o, i) <- p_next inner fuel s ;;
    match o with
    | Some (Got value) =>
        d <- depth_of (p_path inner i) ;;
        Ok (Some (Got value), if (d =? limit)%N then p_prune inner i else i)
    | Some Unwound => Ok (Some Unwound, i)
    | None => Ok (None, i)
    end.

  (** prune_depth.rs 39-48. *)
  Definition uprune_depth (limit : N) : pipe (result A) :=
    mkPipe (p_state inner) (p_init inner) (uprune_depth_next limit) (p_path inner) (p_prune inner).
End UPruneDepth.

Section UPrune.
  Context {A G : Type}.
  Variable inner : pipe (result A).
  Variable f : G -> list N -> A -> G * option bool.

  (** The loop of [Prune::next] prune.rs 44-86 ([PrunePath] prune_path.rs 44-86): the closure is called (prune.rs 67)
      when both vectors have been brought to the right length (48-65). *)
  Definition uprune_body (fuel : nat) (s : @prune_st (result A) G inner)
    : Res (@prune_st (result A) G inner + option (result A) * @prune_st (result A) G inner) :=
    '(o, i) <- p_next inner fuel (pr_inner s) ;;
    match o with
    | None => Ok (inr (None, mkPrune i (pr_clos s) [] []))
    | Some Unwound => Ok (inr (Some Unwound, mkPrune i (pr_clos s) (pr_pruned s) (pr_path s)))
    | Some (Got item) =>
        '(pruned, path) <- prune_resize (length (p_path inner i)) (pr_pruned s) (pr_path s) ;;
        match f (pr_clos s) (p_path inner i) item with
        | (g, None) => Ok (inr (Some Unwound, mkPrune i g pruned path))
        | (g, Some true) =>
            pruned <- (if 0 <? length path then succ_at (length path - 1) pruned else Ok pruned) ;;
            Ok (inl (mkPrune (p_prune inner i) g pruned path))
        | (g, Some false) => Ok (inr (Some (Got item), mkPrune i g pruned path))
        end
    end.

  (** prune.rs 25-34, 95-101. *)
  Definition uprune_from (start : list N) (g : G) : pipe (result A) :=
    mkPipe (@prune_st (result A) G inner) (mkPrune (p_init inner) g start start) (loop uprune_body) pr_path
      (fun s => mkPrune (p_prune inner (pr_inner s)) (pr_clos s) (pr_pruned s) (pr_path s)).

  (** [BinaryPrune::next] prune.rs 145-156 (prune_path.rs 145-157). *)
  Definition ubprune_body (fuel : nat) (s : p_state inner * G)
    : Res (p_state inner * G + option (result A) * (p_state inner * G)) :=
    '(o, i) <- p_next inner fuel (fst s) ;;
    match o with
    | None => Ok (inr (None, (i, snd s)))
    | Some Unwound => Ok (inr (Some Unwound, (i, snd s)))
    | Some (Got item) =>
        match f (snd s) (p_path inner i) item with
        | (g, None) => Ok (inr (Some Unwound, (i, g)))
        | (g, Some true) => Ok (inl (p_prune inner i, g))
        | (g, Some false) => Ok (inr (Some (Got item), (i, g)))
        end
    end.

  (** prune.rs 112-171, prune_path.rs 112-172. *)
  Definition ubprune (g : G) : pipe (result A) :=
    mkPipe (p_state inner * G) (p_init inner, g) (loop ubprune_body) (fun s => p_path inner (fst s))
      (fun s => (p_prune inner (fst s), snd s)).
End UPrune.

(** Whole chains, as [run_chain] and [run_chain_binary] of ModelPipe. *)
Section UChain.
  Variable depth_of : list N -> Res N.
  Variable start : list N.
  Context {V : Type} (P : pipe (result V)).

  Fixpoint urun_chain {A} (c : uchain V A) : pipe (result A) :=
    match c in uchain _ A return pipe (result A) with
    | u_start => P
    | u_map c' g f => umap_tree (urun_chain c') f g
    | u_prune c' g f => uprune_from (urun_chain c') (fun g _ a => f g a) [] g
    | u_prune_path c' g f => uprune_from (urun_chain c') f start g
    | u_prune_depth c' d => uprune_depth (urun_chain c') depth_of d
    end.

  Fixpoint urun_chain_binary {A} (c : uchain V A) : pipe (result A) :=
    match c in uchain _ A return pipe (result A) with
    | u_start => P
    | u_map c' g f => umap_tree (urun_chain_binary c') f g
    | u_prune c' g f => ubprune (urun_chain_binary c') (fun g _ a => f g a) g
    | u_prune_path c' g f => ubprune (urun_chain_binary c') f g
    | u_prune_depth c' d => uprune_depth (urun_chain_binary c') depth_of d
    end.

  (** The states of the closures inside such an object. *)
  Fixpoint uclosures {A} (c : uchain V A) : p_state (urun_chain c) -> uclos c :=
    match c in uchain _ A return p_state (urun_chain c) -> uclos c with
    | u_start => fun _ => tt
    | u_map c' g f => fun s => (uclosures c' (fst s), snd s)
    | u_prune c' g f => fun s => (uclosures c' (pr_inner s), pr_clos s)
    | u_prune_path c' g f => fun s => (uclosures c' (pr_inner s), pr_clos s)
    | u_prune_depth c' d => fun s => uclosures c' s
    end.

  Fixpoint uclosures_binary {A} (c : uchain V A) : p_state (urun_chain_binary c) -> uclos c :=
    match c in uchain _ A return p_state (urun_chain_binary c) -> uclos c with
    | u_start => fun _ => tt
    | u_map c' g f => fun s => (uclosures_binary c' (fst s), snd s)
    | u_prune c' g f => fun s => (uclosures_binary c' (fst s), snd s)
    | u_prune_path c' g f => fun s => (uclosures_binary c' (fst s), snd s)
    | u_prune_depth c' d => fun s => uclosures_binary c' s
    end.
End UChain.

Definition utree_chain {V A} (P : pipe (result V)) (c : uchain V A) : pipe (result A) := urun_chain tree_depth [] P c.
Definition ubtree_chain {V A} (P : pipe (result V)) (c : uchain V A) : pipe (result A) := urun_chain_binary tree_depth P c.
