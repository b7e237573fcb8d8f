(** * ModelUnwind: the iterators of one tree when [get_value_and_children] panics, and the caller catches the panic
    ([catch_unwind]) and goes on using the iterator.

    The method is user code.  Here [gvc n = None] says that it panics on the node [n].  What the iterator has changed
    before that call stays changed, what it would have changed after it does not happen: every function below is the function of
    the same name in ModelBfs, ModelPre, ModelPost, ModelIn or ModelLeaves, and where that one calls
    [get_value_and_children], it has one more case that ends the call with the state of that moment.  The loops
    which do not call the method are used as they are. *)
From Verif Require Import Prelim Spec ModelNode ModelBfs ModelPre ModelPost ModelIn ModelLeaves.

(** What a call of [next()] gives besides [None]: an item, or a panic of the user's code that goes through it. *)
Inductive outcome (A : Type) : Type := Got (a : A) | Unwound.
Arguments Got {A} a.
Arguments Unwound {A}.

(** How a call of [advance()] ends. *)
Inductive ran (S : Type) : Type := Done (s : S) | Raised (s : S).
Arguments Done {S} s.
Arguments Raised {S} s.

(** [StreamingIterator::next]: [advance] then [get]; a panic goes through both. *)
Definition observe {S A} (get : S -> option A) (r : ran S) : option (outcome A) * S :=
  match r with
  | Done s => (option_map Got (get s), s)
  | Raised s => (Some Unwound, s)
  end.

(** [get_value_and_children] provided for binary nodes (prelude.rs 180-188): it panics when
    [get_value_and_children_binary] does. *)
Definition ubinary_gvc {Nd V} (gvcb : Nd -> option (V * (option Nd * option Nd))) (n : Nd) : option (V * list Nd) :=
  option_map (fun '(v, c) => (v, flat_map opt_list (pair_iter c))) (gvcb n).

Section UPlain.
  Context {Nd V : Type}.
  Variable gvc : Nd -> option (V * list Nd).

  (** Breadth first: bfs_iterators/mod.rs 5-26. *)
  Definition ubfs_body (_ : nat) (queue : list (list Nd)) : Res (list (list Nd) + option (outcome V) * bfs_iter Nd) :=
    match queue with
    | [] => Ok (inr (None, mkBfs None []))
    | (nd :: next_queue) :: rest =>
        match gvc nd with
        | Some (value, children) => Ok (inr (Some (Got value), mkBfs None ((next_queue :: rest) ++ [children])))
        | None => Ok (inr (Some Unwound, mkBfs None (next_queue :: rest)))
        end
    | [] :: rest => Ok (inl rest)
    end.
  Definition ubfs_next (fuel : nat) (s : bfs_iter Nd) : Res (option (outcome V) * bfs_iter Nd) :=
    match bfs_root s with
    | Some root =>
        match gvc root with
        | Some (value, children) => Ok (Some (Got value), mkBfs None (bfs_queue s ++ [children]))
        | None => Ok (Some Unwound, mkBfs None (bfs_queue s))
        end
    | None => loop ubfs_body fuel (bfs_queue s)
    end.

  (** Preorder: dfs_preorder_iterators/mod.rs 5-33. *)
  Definition upre_next (fuel : nat) (s : pre_iter Nd) : Res (option (outcome V) * pre_iter Nd) :=
    match pre_root s with
    | Some root =>
        match gvc root with
        | Some (value, children) => Ok (Some (Got value), mkPre None (children :: pre_stack s))
        | None => Ok (Some Unwound, mkPre None (pre_stack s))
        end
    | None =>
        '(next, stack) <- loop pre_next_body fuel (pre_stack s) ;;
        match next with
        | None => Ok (None, mkPre None stack)
        | Some node =>
            match gvc node with
            | Some (value, children) => Ok (Some (Got value), mkPre None (children :: stack))
            | None => Ok (Some Unwound, mkPre None stack)
            end
        end
    end.

  (** Postorder: dfs_postorder_iterators/mod.rs 5-33. *)
  Definition upost_body (_ : nat) (s : post_iter Nd V)
    : Res (post_iter Nd V + option (outcome V) * post_iter Nd V) :=
    match po_root s with
    | Some root =>
        match gvc root with
        | Some (value, children) => Ok (inl (mkPost None (value :: po_items s) (children :: po_stack s)))
        | None => Ok (inr (Some Unwound, mkPost None (po_items s) (po_stack s)))
        end
    | None =>
        match po_stack s with
        | (n :: top) :: rest =>
            match gvc n with
            | Some (value, children) => Ok (inl (mkPost None (value :: po_items s) (children :: top :: rest)))
            | None => Ok (inr (Some Unwound, mkPost None (po_items s) (top :: rest)))
            end
        | [] :: rest => Ok (inr (option_map Got (hd_error (po_items s)), mkPost None (tl (po_items s)) rest))
        | [] => Ok (inr (option_map Got (hd_error (po_items s)), mkPost None (tl (po_items s)) []))
        end
    end.
  Definition upost_next (fuel : nat) (s : post_iter Nd V) : Res (option (outcome V) * post_iter Nd V) :=
    loop upost_body fuel s.

  (** [leaves()] of an iterator that is not breadth first: leaves_iterators/depth_first/mod.rs 5-47. *)
  Definition udleaves_body (_ : nat) (st : bool * dleaves Nd V)
    : Res (bool * dleaves Nd V + option (outcome V) * dleaves Nd V) :=
    let '(just_added, s) := st in
    match dl_top s with
    | (n :: next_iter) :: rest =>
        match gvc n with
        | Some (value, children) =>
            Ok (inl (true, mkDl (dl_root s) (dl_bottom s) (children :: next_iter :: rest) (value :: dl_items s)))
        | None => Ok (inr (Some Unwound, mkDl (dl_root s) (dl_bottom s) (next_iter :: rest) (dl_items s)))
        end
    | [] :: rest =>
        let popped := hd_error (dl_items s) in
        let s' := mkDl (dl_root s) (dl_bottom s) rest (tl (dl_items s)) in
        if just_added then Ok (inr (option_map Got popped, s')) else Ok (inl (just_added, s'))
    | [] =>
        match dl_bottom s with
        | (n :: next_iter) :: rest =>
            match gvc n with
            | Some (value, children) =>
                Ok (inl (just_added, mkDl (dl_root s) (next_iter :: rest) [children] (value :: dl_items s)))
            | None => Ok (inr (Some Unwound, mkDl (dl_root s) (next_iter :: rest) [] (dl_items s)))
            end
        | [] :: rest => Ok (inl (just_added, mkDl (dl_root s) rest [] (dl_items s)))
        | [] => Ok (inr (None, s))
        end
    end.
  Definition udleaves_next (fuel : nat) (s : dleaves Nd V) : Res (option (outcome V) * dleaves Nd V) :=
    match dl_root s with
    | Some root =>
        match gvc root with
        | Some (value, children) =>
            loop udleaves_body fuel (true, mkDl None (dl_bottom s) (children :: dl_top s) (value :: dl_items s))
        | None => Ok (Some Unwound, mkDl None (dl_bottom s) (dl_top s) (dl_items s))
        end
    | None => loop udleaves_body fuel (false, s)
    end.

  (** [leaves()] of a breadth-first iterator: leaves_iterators/breadth_first/mod.rs 5-80. *)
  Definition ubleaves_bfs_body (_ : nat) (s : bleaves Nd) : Res (bleaves Nd + option (outcome (bool * V)) * bleaves Nd) :=
    match bl_old s with
    | [] =>
        match bl_new s with
        | [] => Ok (inr (None, s))
        | [] :: new => Ok (inl (mkBl (bl_root s) [] new))
        | (n :: next_queue) :: new =>
            match gvc n with
            | Some (value, children) =>
                Ok (inr (Some (Got (negb (is_nil children), value)),
                         mkBl (bl_root s) [] ((next_queue :: new) ++ [children])))
            | None => Ok (inr (Some Unwound, mkBl (bl_root s) [] (next_queue :: new)))
            end
        end
    | [] :: old => Ok (inl (mkBl (bl_root s) old (bl_new s)))
    | (n :: next_queue) :: old =>
        match gvc n with
        | Some (value, children) =>
            Ok (inr (Some (Got (negb (is_nil children), value)),
                     mkBl (bl_root s) (next_queue :: old) (bl_new s ++ [children])))
        | None => Ok (inr (Some Unwound, mkBl (bl_root s) (next_queue :: old) (bl_new s)))
        end
    end.
  Definition ubleaves_bfs_next (fuel : nat) (s : bleaves Nd) : Res (option (outcome (bool * V)) * bleaves Nd) :=
    match bl_root s with
    | Some root =>
        match gvc root with
        | Some (value, children) =>
            Ok (Some (Got (negb (is_nil children), value)), mkBl None (bl_old s) (bl_new s ++ [children]))
        | None => Ok (Some Unwound, mkBl None (bl_old s) (bl_new s))
        end
    | None => loop ubleaves_bfs_body fuel s
    end.
  Definition ubleaves_body (fuel : nat) (s : bleaves Nd) : Res (bleaves Nd + option (outcome V) * bleaves Nd) :=
    '(value, s) <- ubleaves_bfs_next fuel s ;;
    match value with
    | None => Ok (inr (None, s))
    | Some Unwound => Ok (inr (Some Unwound, s))
    | Some (Got (true, _)) => Ok (inl s)
    | Some (Got (false, v)) => Ok (inr (Some (Got v), s))
    end.
  Definition ubleaves_next (fuel : nat) (s : bleaves Nd) : Res (option (outcome V) * bleaves Nd) :=
    loop ubleaves_body fuel s.

  (** ** With ancestors *)

  (** Preorder: dfs_preorder_iterators/mod.rs 116-150. *)
  Definition uprea_advance (fuel : nat) (s : prea Nd V) : Res (ran (prea Nd V)) :=
    match pa_root s with
    | Some root =>
        match gvc root with
        | Some (value, children) => Ok (Done (mkPrea None (children :: pa_stack s) (value :: pa_items s)))
        | None => Ok (Raised (mkPrea None (pa_stack s) (pa_items s)))
        end
    | None =>
        '(next, stack, items) <- loop prea_body fuel (pa_stack s, pa_items s) ;;
        match next with
        | None => Ok (Done (mkPrea None stack items))
        | Some node =>
            match gvc node with
            | Some (value, children) => Ok (Done (mkPrea None (children :: stack) (value :: items)))
            | None => Ok (Raised (mkPrea None stack items))
            end
        end
    end.
  Definition uprea_next (fuel : nat) (s : prea Nd V) : Res (option (outcome (list V)) * prea Nd V) :=
    r <- uprea_advance fuel s ;; Ok (observe prea_get r).

  (** Postorder: dfs_postorder_iterators/mod.rs 49-78. *)
  Definition uposta_body (_ : nat) (s : list V * list (list Nd))
    : Res (list V * list (list Nd) + ran (list V * list (list Nd))) :=
    let '(items, stack) := s in
    match stack with
    | [] => Ok (inr (Done (items, [])))
    | (n :: top) :: rest =>
        match gvc n with
        | Some (value, children) => Ok (inl (value :: items, children :: top :: rest))
        | None => Ok (inr (Raised (items, top :: rest)))
        end
    | [] :: rest => Ok (inr (Done (items, rest)))
    end.
  Definition uposta_advance (fuel : nat) (s : post_iter Nd V) : Res (ran (post_iter Nd V)) :=
    let start :=
      match po_root s with
      | Some root =>
          match gvc root with
          | Some (value, children) => Some (value :: po_items s, children :: po_stack s)
          | None => None
          end
      | None => Some (tl (po_items s), po_stack s)
      end in
    match start with
    | None => Ok (Raised (mkPost None (po_items s) (po_stack s)))
    | Some (items, stack) =>
        r <- loop uposta_body fuel (items, stack) ;;
        match r with
        | Done (items, stack) => Ok (Done (mkPost None items stack))
        | Raised (items, stack) => Ok (Raised (mkPost None items stack))
        end
    end.
  Definition uposta_next (fuel : nat) (s : post_iter Nd V) : Res (option (outcome (list V)) * post_iter Nd V) :=
    r <- uposta_advance fuel s ;; Ok (observe posta_get r).

  (** [leaves()] of a depth-first iterator with ancestors: ancestors_depth_first/mod.rs 7-62. *)
  Definition udaleaves_body (_ : nat) (st : bool * daleaves Nd V)
    : Res (bool * daleaves Nd V + ran (daleaves Nd V)) :=
    let '(pushed, s) := st in
    match da_new s with
    | (n :: top) :: rest =>
        match gvc n with
        | Some (value, children) =>
            Ok (inl (true, mkDa (da_root s) (value :: da_items s) (da_old s) (children :: top :: rest)))
        | None => Ok (inr (Raised (mkDa (da_root s) (da_items s) (da_old s) (top :: rest))))
        end
    | _ =>
        let new := tl (da_new s) in
        if pushed then Ok (inr (Done (mkDa (da_root s) (da_items s) (da_old s) new)))
        else
          match da_old s with
          | (n :: top) :: rest =>
              match gvc n with
              | Some (value, children) =>
                  Ok (inl (true, mkDa (da_root s) (value :: da_items s) (top :: rest) (children :: new)))
              | None => Ok (inr (Raised (mkDa (da_root s) (da_items s) (top :: rest) new)))
              end
          | _ =>
              let old := tl (da_old s) in
              let items := tl (da_items s) in
              let s' := mkDa (da_root s) items old new in
              match items with
              | [] => Ok (inr (Done s'))
              | _ => Ok (inl (pushed, s'))
              end
          end
    end.
  Definition udaleaves_advance (fuel : nat) (s : daleaves Nd V) : Res (ran (daleaves Nd V)) :=
    match da_root s with
    | Some root =>
        match gvc root with
        | Some (value, children) =>
            loop udaleaves_body fuel (true, mkDa None (value :: da_items s) (da_old s) (children :: da_new s))
        | None => Ok (Raised (mkDa None (da_items s) (da_old s) (da_new s)))
        end
    | None => loop udaleaves_body fuel (false, mkDa None (tl (da_items s)) (da_old s) (da_new s))
    end.
  Definition udaleaves_next (fuel : nat) (s : daleaves Nd V) : Res (option (outcome (list V)) * daleaves Nd V) :=
    r <- udaleaves_advance fuel s ;; Ok (observe daleaves_get r).

  (** Breadth first: bfs_iterators/mod.rs 274-328. [attach_ancestors] calls the method on the root
      (owned.rs 172-188): [None] when it panics there. *)
  Definition ubfsa_new (root : Nd) : option (bfsa Nd V) :=
    match gvc root with
    | Some (value, children) => Some (mkBfsa true [value] cn_default [] [children])
    | None => None
    end.
  Definition ubfsa_body (fuel : nat) (s : bfsa Nd V) : Res (bfsa Nd V + ran (bfsa Nd V)) :=
    '(items, cache, stack) <- maybe_pop (ba_items s, ba_cache s, ba_stack s) ;;
    match ba_queue s with
    | [] => Panic
    | (nd :: iter) :: queue =>
        match gvc nd with
        | Some (value, children) =>
            Ok (inr (Done (mkBfsa (ba_is_root s) (value :: items) cache stack ((iter :: queue) ++ [children]))))
        | None => Ok (inr (Raised (mkBfsa (ba_is_root s) items cache stack (iter :: queue))))
        end
    | [] :: queue =>
        '(items, cache, stack) <- to_next_parent fuel (items, cache, stack) ;;
        match queue with
        | [] => Ok (inr (Done (mkBfsa (ba_is_root s) [] cache stack [])))
        | _ => Ok (inl (mkBfsa (ba_is_root s) items cache stack queue))
        end
    end.
  Definition ubfsa_advance (fuel : nat) (s : bfsa Nd V) : Res (ran (bfsa Nd V)) :=
    if ba_is_root s
    then Ok (Done (mkBfsa false (ba_items s) (ba_cache s) (ba_stack s) (ba_queue s)))
    else loop ubfsa_body fuel s.
  Definition ubfsa_next (fuel : nat) (s : bfsa Nd V) : Res (option (outcome (list V)) * bfsa Nd V) :=
    r <- ubfsa_advance fuel s ;; Ok (observe bfsa_get r).

  (** [leaves()] of it: ancestors_breadth_first/mod.rs 95-150.  The flag [is_root] is cleared before the method is called. *)
  Definition ubaleaves_body (fuel : nat) (s : bfsa Nd V) : Res (bfsa Nd V + ran (bfsa Nd V)) :=
    match ba_queue s with
    | [] => Ok (inr (Done (mkBfsa (ba_is_root s) [] (ba_cache s) (ba_stack s) [])))
    | front :: queue =>
        '(items, cache, stack) <- maybe_pop (ba_items s, ba_cache s, ba_stack s) ;;
        match front with
        | nd :: iter =>
            match gvc nd with
            | Some (value, children) =>
                let s' := mkBfsa false (value :: items) cache stack ((iter :: queue) ++ [children]) in
                if negb (is_nil children) then Ok (inl s') else Ok (inr (Done s'))
            | None => Ok (inr (Raised (mkBfsa false items cache stack (iter :: queue))))
            end
        | [] =>
            if ba_is_root s then Ok (inr (Done (mkBfsa false items cache stack (front :: queue))))
            else
              '(items, cache, stack) <- to_next_parent fuel (items, cache, stack) ;;
              Ok (inl (mkBfsa (ba_is_root s) items cache stack queue))
        end
    end.
  Definition ubaleaves_next (fuel : nat) (s : bfsa Nd V) : Res (option (outcome (list V)) * bfsa Nd V) :=
    r <- loop ubaleaves_body fuel s ;; Ok (observe bfsa_get r).

  (** ** With context (n-ary trees) *)

  (** Preorder: dfs_preorder_iterators/mod.rs 168-225. *)
  Definition uprec_advance (fuel : nat) (s : prec Nd V Nd (list Nd)) : Res (ran (prec Nd V Nd (list Nd))) :=
    match pc_root s with
    | Some root =>
        match gvc root with
        | Some (value, children) =>
            Ok (Done (mkPrec None (pc_stack s) (pc_path s) (value :: pc_anc s) (Some children)))
        | None => Ok (Raised (mkPrec None (pc_stack s) (pc_path s) (pc_anc s) (pc_children s)))
        end
    | None =>
        match pc_anc s with
        | [] => Ok (Done s)
        | _ =>
            let '(stack, path, anc) :=
              match pc_children s with
              | Some children => (children :: pc_stack s, usize_max :: pc_path s, pc_anc s)
              | None =>
                  (pc_stack s,
                   match pc_path s with
                   | p :: path' => if (p =? usize_max)%N then path' else p :: path'
                   | [] => []
                   end,
                   tl (pc_anc s))
              end in
            '(next, (stack, path, anc)) <- loop prec_body fuel (stack, path, anc) ;;
            match next with
            | Some node =>
                match gvc node with
                | Some (value, children) => Ok (Done (mkPrec None stack path (value :: anc) (Some children)))
                | None => Ok (Raised (mkPrec None stack path anc None))
                end
            | None => Ok (Done (mkPrec None stack path [] None))
            end
        end
    end.
  Definition uprec_next (fuel : nat) (s : prec Nd V Nd (list Nd))
    : Res (option (outcome (tree_context V (list Nd))) * prec Nd V Nd (list Nd)) :=
    r <- uprec_advance fuel s ;; Ok (observe prec_get r).

  (** Postorder: dfs_postorder_iterators/borrow.rs 138-198 (mut_borrow.rs 145-205). *)
  Definition upostc_body (_ : nat) (s : pt_loop_st (V := V) Nd (list Nd))
    : Res (pt_loop_st (V := V) Nd (list Nd) + ran (pt_loop_st (V := V) Nd (list Nd)) * option (list Nd)) :=
    let '(stack, conts, path, anc) := s in
    match stack with
    | (n :: top) :: rest =>
        path <- incr_last path ;;
        match gvc n with
        | Some (value, children) =>
            Ok (inl (children :: top :: rest, children :: conts, usize_max :: path, value :: anc))
        | None => Ok (inr (Raised (top :: rest, conts, path, anc), None))
        end
    | _ =>
        match conts with
        | [] => Panic
        | c :: conts' => Ok (inr (Done (tl stack, conts', tl path, anc), Some c))
        end
    end.
  Definition upostc_end (children : option (list Nd)) (r : ran (pt_loop_st (V := V) Nd (list Nd)) * option (list Nd))
    : ran (postc Nd V Nd (list Nd)) :=
    match r with
    | (Done (stack, conts, path, anc), c) => Done (mkPostc None stack conts path anc c)
    | (Raised (stack, conts, path, anc), _) => Raised (mkPostc None stack conts path anc children)
    end.
  Definition upostc_advance (fuel : nat) (s : postc Nd V Nd (list Nd)) : Res (ran (postc Nd V Nd (list Nd))) :=
    match ModelPost.pt_root s with
    | Some root =>
        match gvc root with
        | Some (value, children) =>
            r <- loop upostc_body fuel (children :: ModelPost.pt_stack s, children :: pt_conts s,
                                        usize_max :: ModelPost.pt_path s, value :: pt_anc s) ;;
            Ok (upostc_end (pt_children s) r)
        | None =>
            Ok (Raised (mkPostc None (ModelPost.pt_stack s) (pt_conts s) (ModelPost.pt_path s) (pt_anc s) (pt_children s)))
        end
    | None =>
        match tl (pt_anc s) with
        | [] => Ok (Done (mkPostc None (ModelPost.pt_stack s) (pt_conts s) (ModelPost.pt_path s) [] (pt_children s)))
        | anc =>
            r <- loop upostc_body fuel (ModelPost.pt_stack s, pt_conts s, ModelPost.pt_path s, anc) ;;
            Ok (upostc_end (pt_children s) r)
        end
    end.
  Definition upostc_next (fuel : nat) (s : postc Nd V Nd (list Nd))
    : Res (option (outcome (tree_context V (list Nd))) * postc Nd V Nd (list Nd)) :=
    r <- upostc_advance fuel s ;; Ok (observe postc_get r).

  (** Breadth first: bfs_iterators/mod.rs 28-98; [new] calls the method on the root (owned.rs 116-136), with the empty path
      for [attach_context]. *)
  Definition ubfsc_start (root : Nd) (path : list N) : option (bfsc V Nd (list Nd)) :=
    match gvc root with Some (value, children) => Some (bfsc_new value children path) | None => None end.
  Definition ubfsc_new (root : Nd) : option (bfsc V Nd (list Nd)) := ubfsc_start root [].
  Definition ubfsc_body (fuel : nat) (s : bfsc V Nd (list Nd)) : Res (bfsc V Nd (list Nd) + ran (bfsc V Nd (list Nd))) :=
    '(anc, path, cache, stack) <- cmaybe_pop (bc_anc s, bc_path s, bc_cache s, bc_stack s) ;;
    match bc_queue s with
    | [] => Panic
    | (nd :: iter) :: queue =>
        counter <- checked_succ (bc_counter s) ;;
        match gvc nd with
        | Some (value, children) =>
            Ok (inr (Done (mkBfsc (bc_is_root s) cache stack (iter :: queue) (bc_counter s :: path) (value :: anc)
                                  (Some children) counter)))
        | None =>
            Ok (inr (Raised (mkBfsc (bc_is_root s) cache stack (iter :: queue) (bc_counter s :: path) anc
                                    (bc_children s) counter)))
        end
    | [] :: queue =>
        '(anc, path, cache, stack) <- cto_next_parent fuel (anc, path, cache, stack) ;;
        match queue with
        | [] => Ok (inr (Done (mkBfsc (bc_is_root s) cache stack [] path [] (bc_children s) 0)))
        | _ => Ok (inl (mkBfsc (bc_is_root s) cache stack queue path anc (bc_children s) 0))
        end
    end.
  Definition ubfsc_advance (fuel : nat) (s : bfsc V Nd (list Nd)) : Res (ran (bfsc V Nd (list Nd))) :=
    if bc_is_root s then
      Ok (Done (mkBfsc false (bc_cache s) (bc_stack s) (bc_queue s) (bc_path s) (bc_anc s) (bc_children s) (bc_counter s)))
    else
      match bc_anc s with
      | [] => Ok (Done s)
      | _ =>
          children <- unwrap (bc_children s) ;;
          loop ubfsc_body fuel
            (mkBfsc false (bc_cache s) (bc_stack s) (bc_queue s ++ [children])
                    (bc_path s) (bc_anc s) None (bc_counter s))
      end.
  Definition ubfsc_next (fuel : nat) (s : bfsc V Nd (list Nd))
    : Res (option (outcome (tree_context V (list Nd))) * bfsc V Nd (list Nd)) :=
    r <- ubfsc_advance fuel s ;; Ok (observe bfsc_get r).
End UPlain.

Section UBinary.
  Context {Nd V : Type}.
  Variable gvcb : Nd -> option (V * (option Nd * option Nd)).

  (** Inorder: dfs_inorder_iterators/mod.rs 5-35. *)
  Definition uin_descend_body (_ : nat) (s : option Nd * list (option Nd) * list V)
    : Res (option Nd * list (option Nd) * list V + ran (list (option Nd) * list V)) :=
    let '(current, rights, items) := s in
    match current with
    | None => Ok (inr (Done (rights, items)))
    | Some n =>
        match gvcb n with
        | Some (value, (l, r)) => Ok (inl (l, r :: rights, value :: items))
        | None => Ok (inr (Raised (rights, items)))
        end
    end.
  Definition uin_next (fuel : nat) (s : in_iter Nd V) : Res (option (outcome V) * in_iter Nd V) :=
    r <- loop in_find_body fuel (in_right s, in_items s) ;;
    match r with
    | inl (o, items, rights) => Ok (option_map Got o, mkIn rights items true)
    | inr (current, rights) =>
        r <- loop uin_descend_body fuel (current, rights, in_items s) ;;
        match r with
        | Done (rights, items) => Ok (option_map Got (hd_error items), mkIn rights (tl items) true)
        | Raised (rights, items) => Ok (Some Unwound, mkIn rights items true)
        end
    end.

  (** With ancestors: dfs_inorder_iterators/mod.rs 39-85. *)
  Definition uina_descend_body (_ : nat) (s : option Nd * ina Nd V) : Res (option Nd * ina Nd V + ran (ina Nd V)) :=
    let '(current, s) := s in
    match current with
    | None => Ok (inr (Done s))
    | Some n =>
        match gvcb n with
        | Some (value, (l, r)) =>
            Ok (inl (l, mkIna (r :: ia_right s) (value :: ia_items s) (WentLeft :: ia_status s)))
        | None => Ok (inr (Raised s))
        end
    end.
  Definition uina_advance (fuel : nat) (s : ina Nd V) : Res (ran (ina Nd V)) :=
    r <- loop ina_find_body fuel s ;;
    match r with
    | Return s' => Ok (Done s')
    | Descend n s' =>
        r <- loop uina_descend_body fuel (Some n, s') ;;
        match r with
        | Done s'' =>
            st <- set_returned (ia_status s'') ;;
            Ok (Done (mkIna (ia_right s'') (ia_items s'') st))
        | Raised s'' => Ok (Raised s'')
        end
    end.
  Definition uina_next (fuel : nat) (s : ina Nd V) : Res (option (outcome (list V)) * ina Nd V) :=
    r <- uina_advance fuel s ;; Ok (observe ina_get r).

  (** With context: dfs_inorder_iterators/borrow.rs 222-288 (mut_borrow.rs 234-307). *)
  Definition uinc_descend_body (_ : nat) (s : option Nd * inc Nd V) : Res (option Nd * inc Nd V + ran (inc Nd V)) :=
    let '(current, s) := s in
    match current with
    | None => Ok (inr (Done s))
    | Some n =>
        match gvcb n with
        | Some (value, (l, r)) =>
            Ok (inl (l, mkInc (r :: ic_right s) (push_segment (ic_status s) (ic_path s)) (value :: ic_anc s)
                              (ic_children s) ((l, r) :: ic_conts s) (WentLeft :: ic_status s)))
        | None => Ok (inr (Raised s))
        end
    end.
  Definition uinc_advance (fuel : nat) (s : inc Nd V) : Res (ran (inc Nd V)) :=
    r <- loop inc_find_body fuel s ;;
    match r with
    | Return s' => Ok (Done s')
    | Descend n s' =>
        r <- loop uinc_descend_body fuel (Some n, s') ;;
        match r with
        | Done s'' =>
            st <- set_returned (ic_status s'') ;;
            match ic_conts s'' with
            | [] => Panic
            | c :: conts => Ok (Done (mkInc (ic_right s'') (ic_path s'') (ic_anc s'') (Some c) conts st))
            end
        | Raised s'' => Ok (Raised s'')
        end
    end.
  Definition uinc_next (fuel : nat) (s : inc Nd V)
    : Res (option (outcome (tree_context V (option Nd * option Nd))) * inc Nd V) :=
    r <- uinc_advance fuel s ;; Ok (observe inc_get r).
End UBinary.
