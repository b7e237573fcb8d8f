(** * ModelLazy: the iterators of one tree over children iterators of any kind, with a record of the calls of
    [get_value_and_children].

    In the other files a children iterator is the list of its items, and trees are finite.  The traits ask for less:
    [OwnedChildren] is any [IntoIterator] (prelude.rs 751; the borrowed traits, 1857 and 2962, ask for a [FusedIterator]), so
    a children iterator may never end, or give items again after it gave [None]; and a node may make its children when it is
    asked for them, so paths may be infinite.  Here a children iterator is a state of any type [It], [poll] is its
    [Iterator::next], and nothing is assumed about either.

    The code is that of ModelBfs, ModelPre and ModelPost.  Every state also has a log of the nodes on
    which [get_value_and_children] was called, last call first. *)
From Verif Require Import Prelim Spec ModelNode ModelPre ModelPost ModelBfs.

Section LazyPlain.
  Context {Nd V C It : Type}.
  Variable gv : Nd -> V * C.               (* get_value_and_children *)
  Variable into_iter : C -> It.            (* IntoIterator::into_iter of the children *)
  Variable poll : It -> option Nd * It.    (* Iterator::next of the children iterator *)

  (** ** Breadth first *)

  (** [OwnedBFSIterator] bfs_iterators/owned.rs 45-51. *)
  Record lbfs := mkLbfs { lb_log : list Nd; lb_root : option Nd; lb_queue : list It }.

  (** [new] owned.rs 57-62. *)
  Definition lbfs_new (root : Nd) : lbfs := mkLbfs [] (Some root) [].

  (** The [while let] loop of [next], bfs_iterators/mod.rs 14-23. *)
  Definition lbfs_body (log : list Nd) (_ : nat) (queue : list It) : Res (list It + option V * lbfs) :=
    match queue with
    | [] => Ok (inr (None, mkLbfs log None []))
    | front :: rest =>
        match poll front with
        | (Some n, front') =>
            let '(value, children) := gv n in
            Ok (inr (Some value, mkLbfs (n :: log) None ((front' :: rest) ++ [into_iter children])))
        | (None, _) => Ok (inl rest)
        end
    end.

  (** [next] bfs_iterators/mod.rs 5-26. *)
  Definition lbfs_next (fuel : nat) (s : lbfs) : Res (option V * lbfs) :=
    match lb_root s with
    | Some root =>
        let '(value, children) := gv root in
        Ok (Some value, mkLbfs (root :: lb_log s) None (lb_queue s ++ [into_iter children]))
    | None => loop (lbfs_body (lb_log s)) fuel (lb_queue s)
    end.

  (** ** Preorder *)

  (** [OwnedDFSPreorderIterator] dfs_preorder_iterators/owned.rs 139-145. *)
  Record lpre := mkLpre { lp_log : list Nd; lp_root : option Nd; lp_stack : list It }.

  (** [new] owned.rs 151-156. *)
  Definition lpre_new (root : Nd) : lpre := mkLpre [] (Some root) [].

  (** The loop of [next], dfs_preorder_iterators/mod.rs 14-24. *)
  Definition lpre_body (_ : nat) (stack : list It) : Res (list It + option Nd * list It) :=
    match stack with
    | [] => Ok (inr (None, []))
    | top :: rest =>
        match poll top with
        | (Some n, top') => Ok (inr (Some n, top' :: rest))
        | (None, _) => Ok (inl rest)
        end
    end.

  (** [next] mod.rs 5-33. *)
  Definition lpre_next (fuel : nat) (s : lpre) : Res (option V * lpre) :=
    match lp_root s with
    | Some root =>
        let '(value, children) := gv root in
        Ok (Some value, mkLpre (root :: lp_log s) None (into_iter children :: lp_stack s))
    | None =>
        '(next, stack) <- loop lpre_body fuel (lp_stack s) ;;
        match next with
        | None => Ok (None, mkLpre (lp_log s) None stack)
        | Some node =>
            let '(value, children) := gv node in
            Ok (Some value, mkLpre (node :: lp_log s) None (into_iter children :: stack))
        end
    end.

  (** [OwnedDFSPreorderIteratorWithAncestors] owned.rs 291-298. *)
  Record lprea := mkLprea { lpa_log : list Nd; lpa_root : option Nd; lpa_stack : list It; lpa_items : list V }.

  (** [new] owned.rs 304-310. *)
  Definition lprea_new (root : Nd) : lprea := mkLprea [] (Some root) [] [].

  (** The loop of [advance], mod.rs 124-135. *)
  Definition lprea_body (_ : nat) (s : list It * list V) : Res (list It * list V + option Nd * list It * list V) :=
    let '(stack, items) := s in
    match stack with
    | [] => Ok (inr (None, [], items))
    | top :: rest =>
        match poll top with
        | (Some n, top') => Ok (inr (Some n, top' :: rest, items))
        | (None, _) => Ok (inl (rest, tl items))
        end
    end.

  (** [advance] and [get], mod.rs 116-150. *)
  Definition lprea_advance (fuel : nat) (s : lprea) : Res lprea :=
    match lpa_root s with
    | Some root =>
        let '(value, children) := gv root in
        Ok (mkLprea (root :: lpa_log s) None (into_iter children :: lpa_stack s) (value :: lpa_items s))
    | None =>
        '(next, stack, items) <- loop lprea_body fuel (lpa_stack s, lpa_items s) ;;
        match next with
        | None => Ok (mkLprea (lpa_log s) None stack items)
        | Some node =>
            let '(value, children) := gv node in
            Ok (mkLprea (node :: lpa_log s) None (into_iter children :: stack) (value :: items))
        end
    end.
  Definition lprea_next (fuel : nat) (s : lprea) : Res (option (list V) * lprea) :=
    s' <- lprea_advance fuel s ;;
    Ok (match lpa_items s' with [] => None | items => Some (rev items) end, s').

  (** ** Postorder *)

  (** [OwnedDFSPostorderIterator] dfs_postorder_iterators/owned.rs 44-51; with ancestors 189-196. *)
  Record lpost := mkLpost { lt_log : list Nd; lt_root : option Nd; lt_items : list V; lt_stack : list It }.

  (** [new] owned.rs 57-63. *)
  Definition lpost_new (root : Nd) : lpost := mkLpost [] (Some root) [] [].

  (** The loops of [next], dfs_postorder_iterators/mod.rs 8-30. *)
  Definition lpost_body (_ : nat) (s : lpost) : Res (lpost + option V * lpost) :=
    match lt_root s with
    | Some root =>
        let '(value, children) := gv root in
        Ok (inl (mkLpost (root :: lt_log s) None (value :: lt_items s) (into_iter children :: lt_stack s)))
    | None =>
        match lt_stack s with
        | [] => Ok (inr (hd_error (lt_items s), mkLpost (lt_log s) None (tl (lt_items s)) []))
        | top :: rest =>
            match poll top with
            | (Some n, top') =>
                let '(value, children) := gv n in
                Ok (inl (mkLpost (n :: lt_log s) None (value :: lt_items s) (into_iter children :: top' :: rest)))
            | (None, _) => Ok (inr (hd_error (lt_items s), mkLpost (lt_log s) None (tl (lt_items s)) rest))
            end
        end
    end.

  (** [next] mod.rs 5-33. *)
  Definition lpost_next (fuel : nat) (s : lpost) : Res (option V * lpost) := loop lpost_body fuel s.

  (** The [while let] loop of [advance] with ancestors, mod.rs 58-69. *)
  Definition lposta_body (_ : nat) (s : list Nd * list V * list It)
    : Res (list Nd * list V * list It + list Nd * list V * list It) :=
    let '(log, items, stack) := s in
    match stack with
    | [] => Ok (inr (log, items, []))
    | top :: rest =>
        match poll top with
        | (Some n, top') =>
            let '(value, children) := gv n in
            Ok (inl (n :: log, value :: items, into_iter children :: top' :: rest))
        | (None, _) => Ok (inr (log, items, rest))
        end
    end.

  (** [advance] and [get], mod.rs 49-78. *)
  Definition lposta_advance (fuel : nat) (s : lpost) : Res lpost :=
    let '(log, items, stack) :=
      match lt_root s with
      | Some root =>
          let '(value, children) := gv root in
          (root :: lt_log s, value :: lt_items s, into_iter children :: lt_stack s)
      | None => (lt_log s, tl (lt_items s), lt_stack s)
      end in
    '(log, items, stack) <- loop lposta_body fuel (log, items, stack) ;;
    Ok (mkLpost log None items stack).
  Definition lposta_next (fuel : nat) (s : lpost) : Res (option (list V) * lpost) :=
    s' <- lposta_advance fuel s ;;
    Ok (match lt_items s' with [] => None | items => Some (rev items) end, s').

  (** ** Breadth first with ancestors *)

  (** [OwnedBFSIteratorWithAncestors] bfs_iterators/owned.rs 157-166. *)
  Record lbfsa := mkLbfsa {
    lba_log : list Nd;
    lba_is_root : bool;
    lba_items : list V;
    lba_cache : cnode V;
    lba_stack : list (cnode V);
    lba_queue : list It
  }.

  (** [new] owned.rs 172-188. *)
  Definition lbfsa_new (root : Nd) : lbfsa :=
    let '(value, children) := gv root in
    mkLbfsa [root] true [value] cn_default [] [into_iter children].

  (** The loop of [advance], bfs_iterators/mod.rs 280-319. *)
  Definition lbfsa_body (fuel : nat) (s : lbfsa) : Res (lbfsa + lbfsa) :=
    '(items, cache, stack) <- maybe_pop (lba_items s, lba_cache s, lba_stack s) ;;
    match lba_queue s with
    | [] => Panic (* &mut self.iterator_queue[0] *)
    | front :: queue =>
        match poll front with
        | (Some n, iter) =>
            let '(value, children) := gv n in
            Ok (inr (mkLbfsa (n :: lba_log s) (lba_is_root s) (value :: items) cache stack
                             ((iter :: queue) ++ [into_iter children])))
        | (None, _) =>
            '(items, cache, stack) <- to_next_parent fuel (items, cache, stack) ;;
            match queue with
            | [] => Ok (inr (mkLbfsa (lba_log s) (lba_is_root s) [] cache stack []))
            | _ => Ok (inl (mkLbfsa (lba_log s) (lba_is_root s) items cache stack queue))
            end
        end
    end.

  (** [advance] and [get], bfs_iterators/mod.rs 274-328. *)
  Definition lbfsa_advance (fuel : nat) (s : lbfsa) : Res lbfsa :=
    if lba_is_root s
    then Ok (mkLbfsa (lba_log s) false (lba_items s) (lba_cache s) (lba_stack s) (lba_queue s))
    else loop lbfsa_body fuel s.
  Definition lbfsa_next (fuel : nat) (s : lbfsa) : Res (option (list V) * lbfsa) :=
    s' <- lbfsa_advance fuel s ;;
    Ok (match lba_items s' with [] => None | items => Some (rev items) end, s').
End LazyPlain.
Arguments lbfs : clear implicits.
Arguments lpre : clear implicits.
Arguments lprea : clear implicits.
Arguments lpost : clear implicits.
Arguments lbfsa : clear implicits.

(** ** With context

    The n-ary and the binary macros differ in how they get the next node from a children iterator. *)
Section LazyContext.
  Context {Nd V C It : Type}.
  Variable gv : Nd -> V * C.
  Variable into_iter : C -> It.
  (** The next node, with the last segment of the path counted up: [nary_scan] or [ModelPre.prec_scan]. *)
  Variable scan : It -> list N -> Res (option Nd * It * list N).
  (** The next node, with its path segment: [nary_fetch] or [ModelBfs.bfsc_skip]. *)
  Variable fetch : It -> N -> Res (option Nd * It * N).

  (** [OwnedDFSPreorderIteratorWithContext] dfs_preorder_iterators/owned.rs 250-257 (binary 605-612). *)
  Record lprec := mkLprec {
    lpc_log : list Nd;
    lpc_root : option Nd;
    lpc_stack : list It;
    lpc_path : list N;
    lpc_anc : list V;
    lpc_children : option C
  }.

  (** [new] owned.rs 263-273 (binary 618-628). *)
  Definition lprec_new (root : Nd) (path : list N) : lprec := mkLprec [] (Some root) [] (rev path) [] None.

  (** The loop of [advance], mod.rs 190-208 (binary 253-274). *)
  Definition lprec_body (_ : nat) (s : list It * list N * list V)
    : Res (list It * list N * list V + option Nd * (list It * list N * list V)) :=
    let '(stack, path, anc) := s in
    match stack with
    | [] => Ok (inr (None, ([], path, anc)))
    | top :: rest =>
        '(found, top', path) <- scan top path ;;
        match found with
        | Some n => Ok (inr (Some n, (top' :: rest, path, anc)))
        | None => Ok (inl (rest, tl path, tl anc))
        end
    end.

  (** [advance] mod.rs 168-217 (binary 231-283). *)
  Definition lprec_advance (fuel : nat) (s : lprec) : Res lprec :=
    match lpc_root s with
    | Some root =>
        let '(value, children) := gv root in
        Ok (mkLprec (root :: lpc_log s) None (lpc_stack s) (lpc_path s) (value :: lpc_anc s) (Some children))
    | None =>
        match lpc_anc s with
        | [] => Ok s
        | _ =>
            let '(stack, path, anc) :=
              match lpc_children s with
              | Some children => (into_iter children :: lpc_stack s, usize_max :: lpc_path s, lpc_anc s)
              | None =>
                  (lpc_stack s,
                   match lpc_path s with
                   | p :: path' => if (p =? usize_max)%N then path' else p :: path'
                   | [] => []
                   end,
                   tl (lpc_anc s))
              end in
            '(next, (stack, path, anc)) <- loop lprec_body fuel (stack, path, anc) ;;
            match next with
            | Some node =>
                let '(value, children) := gv node in
                Ok (mkLprec (node :: lpc_log s) None stack path (value :: anc) (Some children))
            | None => Ok (mkLprec (lpc_log s) None stack path [] None)
            end
        end
    end.

  (** [advance] then [get], mod.rs 219-225 (binary 285-291). *)
  Definition lprec_next (fuel : nat) (s : lprec) : Res (option (tree_context V C) * lprec) :=
    s' <- lprec_advance fuel s ;;
    Ok (match lpc_anc s' with [] => None | anc => Some (mkCtx (rev (lpc_path s')) (rev anc) (lpc_children s')) end, s').

  (** [OwnedBFSIteratorWithContext] bfs_iterators/owned.rs 100-110 (binary 357-367). *)
  Record lbfsc := mkLbfsc {
    lbc_log : list Nd;
    lbc_is_root : bool;
    lbc_cache : cnode V;
    lbc_stack : list (cnode V);
    lbc_queue : list It;
    lbc_path : list N;
    lbc_anc : list V;
    lbc_children : option C;
    lbc_counter : N
  }.

  (** [new] owned.rs 116-136 (binary 373-393). *)
  Definition lbfsc_new (root : Nd) (path : list N) : lbfsc :=
    let '(value, children) := gv root in
    mkLbfsc [root] true cn_default [] [] (rev path) [value] (Some children) 0.

  (** The loop of [advance], bfs_iterators/mod.rs 43-87 (binary 211-259). *)
  Definition lbfsc_body (fuel : nat) (s : lbfsc) : Res (lbfsc + lbfsc) :=
    '(anc, path, cache, stack) <- cmaybe_pop (lbc_anc s, lbc_path s, lbc_cache s, lbc_stack s) ;;
    match lbc_queue s with
    | [] => Panic (* &mut self.iterator_queue[0] *)
    | front :: queue =>
        '(found, iter, counter) <- fetch front (lbc_counter s) ;;
        match found with
        | Some nd =>
            counter' <- checked_succ counter ;;
            let '(value, children) := gv nd in
            Ok (inr (mkLbfsc (nd :: lbc_log s) (lbc_is_root s) cache stack (iter :: queue) (counter :: path) (value :: anc)
                             (Some children) counter'))
        | None =>
            '(anc, path, cache, stack) <- cto_next_parent fuel (anc, path, cache, stack) ;;
            match queue with
            | [] => Ok (inr (mkLbfsc (lbc_log s) (lbc_is_root s) cache stack [] path [] (lbc_children s) 0))
            | _ => Ok (inl (mkLbfsc (lbc_log s) (lbc_is_root s) cache stack queue path anc (lbc_children s) 0))
            end
        end
    end.

  (** [advance] bfs_iterators/mod.rs 30-88 (binary 198-260). *)
  Definition lbfsc_advance (fuel : nat) (s : lbfsc) : Res lbfsc :=
    if lbc_is_root s then
      Ok (mkLbfsc (lbc_log s) false (lbc_cache s) (lbc_stack s) (lbc_queue s) (lbc_path s) (lbc_anc s) (lbc_children s)
                  (lbc_counter s))
    else
      match lbc_anc s with
      | [] => Ok s
      | _ =>
          children <- unwrap (lbc_children s) ;;
          loop lbfsc_body fuel
            (mkLbfsc (lbc_log s) false (lbc_cache s) (lbc_stack s) (lbc_queue s ++ [into_iter children])
                     (lbc_path s) (lbc_anc s) None (lbc_counter s))
      end.

  (** [advance] then [get], bfs_iterators/mod.rs 90-96. *)
  Definition lbfsc_next (fuel : nat) (s : lbfsc) : Res (option (tree_context V C) * lbfsc) :=
    s' <- lbfsc_advance fuel s ;;
    Ok (match lbc_anc s' with [] => None | anc => Some (mkCtx (rev (lbc_path s')) (rev anc) (lbc_children s')) end, s').

  (** [BorrowedDFSPostorderIteratorWithContext] dfs_postorder_iterators/borrow.rs 105-113 (binary 375-383; mut_borrow.rs
      109-117 and 406-414).  [OwnedDFSPostorderIteratorWithContext] owned.rs 104-111 (binary 373-380) is the same
      without [ltc_conts] and [ltc_children]. *)
  Record lpostc := mkLpostc {
    ltc_log : list Nd;
    ltc_root : option Nd;
    ltc_stack : list It;
    ltc_conts : list C;
    ltc_path : list N;
    ltc_anc : list V;
    ltc_children : option C
  }.

  (** [new] borrow.rs 119-130 (binary 389-403). *)
  Definition lpostc_new (root : Nd) (path : list N) : lpostc := mkLpostc [] (Some root) [] [] (rev path) [] None.

  Definition ltc_loop_st : Type := list Nd * list It * list C * list N * list V.

  (** The loop of [advance], borrow.rs 156-189 (binary 429-464; mut_borrow.rs 164-197, 466-505). *)
  Definition lpostc_body (_ : nat) (s : ltc_loop_st) : Res (ltc_loop_st + ltc_loop_st * C) :=
    let '(log, stack, conts, path, anc) := s in
    match stack with
    | top :: rest =>
        '(found, top', path) <- scan top path ;;
        match found with
        | Some n =>
            let '(value, children) := gv n in
            Ok (inl (n :: log, into_iter children :: top' :: rest, children :: conts, usize_max :: path, value :: anc))
        | None =>
            match conts with
            | [] => Panic (* pop().expect(..) *)
            | c :: conts' => Ok (inr ((log, rest, conts', tl path, anc), c))
            end
        end
    | [] =>
        match conts with
        | [] => Panic
        | c :: conts' => Ok (inr ((log, [], conts', tl path, anc), c))
        end
    end.

  (** [advance] borrow.rs 138-190 (binary 411-465; mut_borrow.rs 145-198, 442-506). *)
  Definition lpostc_advance (fuel : nat) (s : lpostc) : Res lpostc :=
    match ltc_root s with
    | Some root =>
        let '(value, children) := gv root in
        '((log, stack, conts, path, anc), c) <-
          loop lpostc_body fuel (root :: ltc_log s, into_iter children :: ltc_stack s, children :: ltc_conts s,
                                 usize_max :: ltc_path s, value :: ltc_anc s) ;;
        Ok (mkLpostc log None stack conts path anc (Some c))
    | None =>
        match tl (ltc_anc s) with
        | [] => Ok (mkLpostc (ltc_log s) None (ltc_stack s) (ltc_conts s) (ltc_path s) [] (ltc_children s))
        | anc =>
            '((log, stack, conts, path, anc), c) <-
              loop lpostc_body fuel (ltc_log s, ltc_stack s, ltc_conts s, ltc_path s, anc) ;;
            Ok (mkLpostc log None stack conts path anc (Some c))
        end
    end.

  (** [advance] then [get], borrow.rs 192-198. *)
  Definition lpostc_next (fuel : nat) (s : lpostc) : Res (option (tree_context V C) * lpostc) :=
    s' <- lpostc_advance fuel s ;;
    Ok (match ltc_anc s' with [] => None | anc => Some (mkCtx (rev (ltc_path s')) (rev anc) (ltc_children s')) end, s').
End LazyContext.
Arguments lprec : clear implicits.
Arguments lbfsc : clear implicits.
Arguments lpostc : clear implicits.

(** n-ary: dfs_preorder_iterators/mod.rs 193-199, dfs_postorder_iterators/borrow.rs 157-162. *)
Definition nary_scan {Nd It} (poll : It -> option Nd * It) (it : It) (path : list N) : Res (option Nd * It * list N) :=
  match poll it with
  | (Some n, it') => path <- incr_last path ;; Ok (Some n, it', path)
  | (None, it') => Ok (None, it', path)
  end.
(** n-ary: bfs_iterators/mod.rs 50. *)
Definition nary_fetch {Nd It} (poll : It -> option Nd * It) (it : It) (counter : N) : Res (option Nd * It * N) :=
  let '(o, it') := poll it in Ok (o, it', counter).
