(** * ModelUnwindCtx: the remaining context iterators when [get_value_and_children] panics.

    As ModelUnwind: [gvc n = None] says that the method panics on [n], and a panic leaves what had been done before it.
    Here the contexts of binary trees in preorder, postorder and breadth first, and the owned contexts (without children) in
    postorder and inorder. *)
From Verif Require Import Prelim ModelNode ModelBfs ModelPre ModelPost ModelIn ModelUnwind.

Section UBinaryContext.
  Context {Nd V : Type}.
  Local Notation C := (option Nd * option Nd)%type.
  Variable gvcb : Nd -> option (V * C).

  (** Preorder: dfs_preorder_iterators/mod.rs 231-283.  [children] has been taken before the search, so a panic leaves
      [None] there. *)
  Definition uprecb_advance (fuel : nat) (s : prec Nd V (option Nd) C) : Res (ran (prec Nd V (option Nd) C)) :=
    match pc_root s with
    | Some root =>
        match gvcb root with
        | Some (value, children) =>
            Ok (Done (mkPrec None (pc_stack s) (pc_path s) (value :: pc_anc s) (Some children)))
        | None => Ok (Raised (mkPrec None (pc_stack s) (pc_path s) (pc_anc s) (pc_children s)))
        end
    | None =>
        match pc_anc s with
        | [] => Ok (Done s)
        | _ =>
            let '(stack, path, anc) :=
              match pc_children s with
              | Some children => (pair_iter children :: pc_stack s, usize_max :: pc_path s, pc_anc s)
              | None =>
                  (pc_stack s,
                   match pc_path s with
                   | p :: path' => if (p =? usize_max)%N then path' else p :: path'
                   | [] => []
                   end,
                   tl (pc_anc s))
              end in
            '(next, (stack, path, anc)) <- loop precb_body fuel (stack, path, anc) ;;
            match next with
            | Some node =>
                match gvcb node with
                | Some (value, children) => Ok (Done (mkPrec None stack path (value :: anc) (Some children)))
                | None => Ok (Raised (mkPrec None stack path anc None))
                end
            | None => Ok (Done (mkPrec None stack path [] None))
            end
        end
    end.
  Definition uprecb_next (fuel : nat) (s : prec Nd V (option Nd) C)
    : Res (option (outcome (tree_context V C)) * prec Nd V (option Nd) C) :=
    r <- uprecb_advance fuel s ;; Ok (observe prec_get r).

  (** Postorder: dfs_postorder_iterators/borrow.rs 411-465 (mut_borrow.rs 442-506, which also clears [children] on entry;
      [children] is set again by every call that returns a context). *)
  Definition upostcb_body (_ : nat) (s : pt_loop_st (V := V) (option Nd) C)
    : Res (pt_loop_st (V := V) (option Nd) C + ran (pt_loop_st (V := V) (option Nd) C) * option C) :=
    let '(stack, conts, path, anc) := s in
    match stack with
    | top :: rest =>
        '(found, top', path) <- prec_scan top path ;;
        match found with
        | Some n =>
            match gvcb n with
            | Some (value, children) =>
                Ok (inl (pair_iter children :: top' :: rest, children :: conts, usize_max :: path, value :: anc))
            | None => Ok (inr (Raised (top' :: rest, conts, path, anc), None))
            end
        | None =>
            match conts with
            | [] => Panic
            | c :: conts' => Ok (inr (Done (rest, conts', tl path, anc), Some c))
            end
        end
    | [] =>
        match conts with
        | [] => Panic
        | c :: conts' => Ok (inr (Done ([], conts', tl path, anc), Some c))
        end
    end.
  Definition upostcb_end (children : option C) (r : ran (pt_loop_st (V := V) (option Nd) C) * option C)
    : ran (postc Nd V (option Nd) C) :=
    match r with
    | (Done (stack, conts, path, anc), c) => Done (mkPostc None stack conts path anc c)
    | (Raised (stack, conts, path, anc), _) => Raised (mkPostc None stack conts path anc children)
    end.
  Definition upostcb_advance (fuel : nat) (s : postc Nd V (option Nd) C) : Res (ran (postc Nd V (option Nd) C)) :=
    match ModelPost.pt_root s with
    | Some root =>
        match gvcb root with
        | Some (value, children) =>
            r <- loop upostcb_body fuel (pair_iter children :: ModelPost.pt_stack s, children :: pt_conts s,
                                         usize_max :: ModelPost.pt_path s, value :: pt_anc s) ;;
            Ok (upostcb_end (pt_children s) r)
        | None =>
            Ok (Raised (mkPostc None (ModelPost.pt_stack s) (pt_conts s) (ModelPost.pt_path s) (pt_anc s) (pt_children s)))
        end
    | None =>
        match tl (pt_anc s) with
        | [] => Ok (Done (mkPostc None (ModelPost.pt_stack s) (pt_conts s) (ModelPost.pt_path s) [] (pt_children s)))
        | anc =>
            r <- loop upostcb_body fuel (ModelPost.pt_stack s, pt_conts s, ModelPost.pt_path s, anc) ;;
            Ok (upostcb_end (pt_children s) r)
        end
    end.
  Definition upostcb_next (fuel : nat) (s : postc Nd V (option Nd) C)
    : Res (option (outcome (tree_context V C)) * postc Nd V (option Nd) C) :=
    r <- upostcb_advance fuel s ;; Ok (observe postc_get r).

  (** Breadth first: bfs_iterators/mod.rs 196-270; [new] calls the method on the root (owned.rs 373-393). *)
  Definition ubfscb_start (root : Nd) (path : list N) : option (bfsc V (option Nd) C) :=
    match gvcb root with Some (value, children) => Some (bfsc_new value children path) | None => None end.
  Definition ubfscb_body (fuel : nat) (s : bfsc V (option Nd) C) : Res (bfsc V (option Nd) C + ran (bfsc V (option Nd) C)) :=
    '(anc, path, cache, stack) <- cmaybe_pop (bc_anc s, bc_path s, bc_cache s, bc_stack s) ;;
    match bc_queue s with
    | [] => Panic
    | front :: queue =>
        '(found, iter, counter) <- bfsc_skip front (bc_counter s) ;;
        match found with
        | Some nd =>
            counter' <- checked_succ counter ;;
            match gvcb nd with
            | Some (value, children) =>
                Ok (inr (Done (mkBfsc (bc_is_root s) cache stack (iter :: queue) (counter :: path) (value :: anc)
                                      (Some children) counter')))
            | None =>
                Ok (inr (Raised (mkBfsc (bc_is_root s) cache stack (iter :: queue) (counter :: path) anc
                                        (bc_children s) counter')))
            end
        | None =>
            '(anc, path, cache, stack) <- cto_next_parent fuel (anc, path, cache, stack) ;;
            match queue with
            | [] => Ok (inr (Done (mkBfsc (bc_is_root s) cache stack [] path [] (bc_children s) 0)))
            | _ => Ok (inl (mkBfsc (bc_is_root s) cache stack queue path anc (bc_children s) 0))
            end
        end
    end.
  Definition ubfscb_advance (fuel : nat) (s : bfsc V (option Nd) C) : Res (ran (bfsc V (option Nd) C)) :=
    if bc_is_root s then
      Ok (Done (mkBfsc false (bc_cache s) (bc_stack s) (bc_queue s) (bc_path s) (bc_anc s) (bc_children s) (bc_counter s)))
    else
      match bc_anc s with
      | [] => Ok (Done s)
      | _ =>
          children <- unwrap (bc_children s) ;;
          loop ubfscb_body fuel
            (mkBfsc false (bc_cache s) (bc_stack s) (bc_queue s ++ [pair_iter children])
                    (bc_path s) (bc_anc s) None (bc_counter s))
      end.
  Definition ubfscb_next (fuel : nat) (s : bfsc V (option Nd) C)
    : Res (option (outcome (tree_context V C)) * bfsc V (option Nd) C) :=
    r <- ubfscb_advance fuel s ;; Ok (observe bfsc_get r).

  (** Inorder, owned: dfs_inorder_iterators/owned.rs 225-283. *)
  Definition uinco_descend_body (_ : nat) (s : option Nd * inco Nd V) : Res (option Nd * inco Nd V + ran (inco Nd V)) :=
    let '(current, s) := s in
    match current with
    | None => Ok (inr (Done s))
    | Some n =>
        match gvcb n with
        | Some (value, (l, r)) =>
            Ok (inl (l, mkInco (r :: io_right s) (push_segment (io_status s) (io_path s)) (value :: io_anc s)
                               (WentLeft :: io_status s)))
        | None => Ok (inr (Raised s))
        end
    end.
  Definition uinco_advance (fuel : nat) (s : inco Nd V) : Res (ran (inco Nd V)) :=
    r <- loop inco_find_body fuel s ;;
    match r with
    | Return s' => Ok (Done s')
    | Descend n s' =>
        r <- loop uinco_descend_body fuel (Some n, s') ;;
        match r with
        | Done s'' =>
            st <- set_returned (io_status s'') ;;
            Ok (Done (mkInco (io_right s'') (io_path s'') (io_anc s'') st))
        | Raised s'' => Ok (Raised s'')
        end
    end.
  Definition uinco_next (fuel : nat) (s : inco Nd V) : Res (option (outcome (tree_context V unit)) * inco Nd V) :=
    r <- uinco_advance fuel s ;; Ok (observe inco_get r).
End UBinaryContext.

(** Postorder, owned: dfs_postorder_iterators/owned.rs 135-179 (binary 404-452). *)
Section UPostOwned.
  Context {Nd V I C : Type}.
  Variable gv : Nd -> option (V * C).
  Variable into_iter : C -> list I.
  (** The search for the next child in the iterator on top of the stack: the first item n-ary, the first present one binary. *)
  Variable scan : list I -> list N -> Res (option Nd * list I * list N).

  Definition upostco_body (_ : nat) (s : pto_loop_st (V := V) I)
    : Res (pto_loop_st (V := V) I + ran (pto_loop_st (V := V) I)) :=
    let '(stack, path, anc) := s in
    match stack with
    | top :: rest =>
        '(found, top', path) <- scan top path ;;
        match found with
        | Some n =>
            match gv n with
            | Some (value, children) =>
                Ok (inl (into_iter children :: top' :: rest, usize_max :: path, value :: anc))
            | None => Ok (inr (Raised (top' :: rest, path, anc)))
            end
        | None => Ok (inr (Done (rest, tl path, anc)))
        end
    | [] => Ok (inr (Done ([], tl path, anc)))
    end.
  Definition upostco_end (r : ran (pto_loop_st (V := V) I)) : ran (postc_owned Nd V I) :=
    match r with
    | Done (stack, path, anc) => Done (mkPostcO None stack path anc)
    | Raised (stack, path, anc) => Raised (mkPostcO None stack path anc)
    end.
  Definition upostco_advance (fuel : nat) (s : postc_owned Nd V I) : Res (ran (postc_owned Nd V I)) :=
    match pto_root s with
    | Some root =>
        match gv root with
        | Some (value, children) =>
            r <- loop upostco_body fuel (into_iter children :: pto_stack s, usize_max :: pto_path s, value :: pto_anc s) ;;
            Ok (upostco_end r)
        | None => Ok (Raised (mkPostcO None (pto_stack s) (pto_path s) (pto_anc s)))
        end
    | None =>
        match tl (pto_anc s) with
        | [] => Ok (Done (mkPostcO None (pto_stack s) (pto_path s) []))
        | anc => r <- loop upostco_body fuel (pto_stack s, pto_path s, anc) ;; Ok (upostco_end r)
        end
    end.
  Definition upostco_next_with (fuel : nat) (s : postc_owned Nd V I)
    : Res (option (outcome (tree_context V unit)) * postc_owned Nd V I) :=
    r <- upostco_advance fuel s ;; Ok (observe postco_get r).
End UPostOwned.

(** [top.next()] with the step of the last path segment, owned.rs 150-157. *)
Definition step_scan {Nd} (top : list Nd) (path : list N) : Res (option Nd * list Nd * list N) :=
  match top with
  | n :: top' => path <- incr_last path ;; Ok (Some n, top', path)
  | [] => Ok (None, [], path)
  end.
Definition upostco_next {Nd V} (gvc : Nd -> option (V * list Nd)) := upostco_next_with gvc (fun l => l) step_scan.
Definition upostcob_next {Nd V} (gvcb : Nd -> option (V * (option Nd * option Nd))) := upostco_next_with gvcb pair_iter prec_scan.
