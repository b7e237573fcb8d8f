(** * ModelUnwindTrees: the consumers of a collection's pipeline when user code in it panics and the caller goes on.

    As [Consumer] of ModelPipeColl, with the two places where user code is called: [self.inner.next()], and the closure of the
    folds.  The local variables of [next] (the stack of what has been read) are dropped by the unwinding, and so is the item
    that had been taken out of the lookahead or of the inner iterator: [self.lookahead = Some(item)] comes after the call of the
    closure. *)
From Verif Require Import Prelim Spec ModelNode ModelUnwind SpecPipe SpecUnwindPipe ModelPipe ModelPipeColl ModelUnwindPipe.

Section UConsumer.
  Context {A O C St : Type}.
  Variable P : pipe (result A).
  Variable start : C -> St.
  Variable must_close : St -> list N -> Res bool.
  Variable drained : St -> option C.
  (** As in ModelPipeColl; [inr (Unwound, c)]: the closure has panicked. *)
  Variable close_top : St -> Res (St + result O * C).
  Variable push : St -> A -> list N -> Res St.
  (** The closure, which lives in the object. *)
  Variable closure : St -> C.

  (** trees.rs 48-60, 126-142; fold.rs 57-67, 136-146; fold_path.rs 58-69, 146-157. *)
  Definition uclose_body (path : list N) (_ : nat) (st : St) : Res (St + (St + result O * C)) :=
    b <- must_close st path ;;
    if b then r <- close_top st ;; match r with inl st' => Ok (inl st') | inr out => Ok (inr (inr out)) end
    else Ok (inr (inl st)).

  (** trees.rs 68-75, 154-165; fold.rs 73-83, 152-162; fold_path.rs 80-91, 164-175. *)
  Definition udrain_body (_ : nat) (st : St) : Res (St + option (result O) * C) :=
    match drained st with
    | Some c => Ok (inr (None, c))
    | None => r <- close_top st ;; match r with inl st' => Ok (inl st') | inr (o, c) => Ok (inr (Some o, c)) end
    end.

  Definition uconsumer : Type := p_state P * option A * C.

  (** trees.rs 38-66, 116-152; fold.rs 48-71, 127-150; fold_path.rs 49-78, 137-162. *)
  Definition uconsume_body (fuel : nat) (s : p_state P * option A * St)
    : Res (p_state P * option A * St + option (result O) * uconsumer) :=
    let '(i, ahead, st) := s in
    '(o, i) <- (match ahead with Some item => Ok (Some (Got item), i) | None => p_next P fuel i end) ;;
    match o with
    | None => '(r, c) <- loop udrain_body fuel st ;; Ok (inr (r, (i, None, c)))
    | Some Unwound => Ok (inr (Some Unwound, (i, None, closure st)))
    | Some (Got item) =>
        r <- loop (uclose_body (p_path P i)) fuel st ;;
        match r with
        | inr (Got out, c) => Ok (inr (Some (Got out), (i, Some item, c)))
        | inr (Unwound, c) => Ok (inr (Some Unwound, (i, None, c)))
        | inl st => st <- push st item (p_path P i) ;; Ok (inl (i, None, st))
        end
    end.

  Definition uconsume_next (fuel : nat) (s : uconsumer) : Res (option (result O) * uconsumer) :=
    let '(i, ahead, c) := s in loop uconsume_body fuel (i, ahead, start c).

  Definition uconsume_new (c : C) : uconsumer := (p_init P, None, c).
End UConsumer.

(** No closure is called when a node is put below its parent. *)
Definition calmly {St O C} (close : St -> Res (St + O * C)) (st : St) : Res (St + result O * C) :=
  r <- close st ;; match r with inl st' => Ok (inl st') | inr (o, c) => Ok (inr (Got o, c)) end.

Section UTrees.
  Context {A : Type} (P : pipe (result A)).

  (** [Trees::next] trees.rs 36-76, [Trees::new] 20-27. *)
  Definition utrees_next : nat -> uconsumer P -> Res (option (result (tree A)) * uconsumer P) :=
    uconsume_next P (fun _ : unit => []) (fun st path => Ok (length path <=? length st)) is_nil (calmly trees_close)
      (fun st item _ => Ok (TNode item [] :: st)) (fun _ => tt).
  Definition utrees_new : uconsumer P := uconsume_new P tt.

  (** [BinaryTrees::next] trees.rs 114-166, [BinaryTrees::new] 98-105. *)
  Definition ubtrees_next : nat -> uconsumer P -> Res (option (result (btree A)) * uconsumer P) :=
    uconsume_next P (fun _ : unit => []) (fun st path => Ok (length path <=? length st)) is_nil (calmly btrees_close)
      (fun st item path => slot <- last_seg path ;; Ok ((slot, BNode item None None) :: st)) (fun _ => tt).
End UTrees.

Section UFoldTrees.
  Context {A G O : Type} (P : pipe (result A)).

  (** The closure may panic. *)
  Variable f : G -> list O -> A -> G * option O.
  (** fold.rs 58-66, 73-81. *)
  Definition ucfold_close (st : @cfold_st A G O) : Res (@cfold_st A G O + result O * G) :=
    let '(g, values, folded) := st in
    match folded with
    | [] => Panic
    | items :: folded =>
        match values with
        | [] => Panic
        | value :: values =>
            match f g items value with
            | (g, None) => Ok (inr (Unwound, g))
            | (g, Some r) =>
                match folded with
                | [] => Ok (inr (Got r, g))
                | last :: rest => Ok (inl (g, values, (last ++ [r]) :: rest))
                end
            end
        end
    end.
  (** [Fold::next] fold.rs 44-84, [Fold::new] 25-34. *)
  Definition ucfold_next : nat -> uconsumer P -> Res (option (result O) * uconsumer P) :=
    uconsume_next P (fun g : G => (g, [], [])) (fun st path => deeper (length (snd st)) path)
      (fun st : cfold_st => match snd st with [] => Some (fst (fst st)) | _ => None end) ucfold_close
      (fun st item _ => let '(g, values, folded) := st in Ok (g, item :: values, [] :: folded)) (fun st => fst (fst st)).
End UFoldTrees.

Section UBFoldTrees.
  Context {A G O : Type} (P : pipe (result A)).

  Variable f : G -> option O * option O -> A -> G * option O.
  (** fold.rs 137-145, 152-160. *)
  Definition ubcfold_close (st : @bcfold_st A G O) : Res (@bcfold_st A G O + result O * G) :=
    let '(g, values, folded) := st in
    match folded with
    | [] => Panic
    | (slot, items) :: folded =>
        match values with
        | [] => Panic
        | value :: values =>
            match f g items value with
            | (g, None) => Ok (inr (Unwound, g))
            | (g, Some r) =>
                match folded with
                | [] => Ok (inr (Got r, g))
                | (slot', last) :: rest => last <- set_slot slot last r ;; Ok (inl (g, values, (slot', last) :: rest))
                end
            end
        end
    end.
  (** [BinaryFold::next] fold.rs 124-163, [BinaryFold::new] 105-114. *)
  Definition ubcfold_next : nat -> uconsumer P -> Res (option (result O) * uconsumer P) :=
    uconsume_next P (fun g : G => (g, [], [])) (fun st path => deeper (length (snd st)) path)
      (fun st : bcfold_st => match snd st with [] => Some (fst (fst st)) | _ => None end) ubcfold_close
      (fun st item path => let '(g, values, folded) := st in
         slot <- last_seg path ;; Ok (g, item :: values, (slot, (None, None)) :: folded)) (fun st => fst (fst st)).
End UBFoldTrees.

Section UFoldPathTrees.
  Context {A G O : Type} (P : pipe (result A)).

  Variable f : G -> list O -> list N -> A -> G * option O.
  (** fold_path.rs 59-68, 80-88. *)
  Definition ucfoldp_close (st : @cfoldp_st A G O) : Res (@cfoldp_st A G O + result O * G) :=
    let '(g, values, folded, path) := st in
    match folded with
    | [] => Panic
    | items :: folded =>
        match values with
        | [] => Panic
        | value :: values =>
            match f g items (rev path) value with
            | (g, None) => Ok (inr (Unwound, g))
            | (g, Some r) =>
                match path with
                | [] => Panic
                | _ :: path =>
                    match folded with
                    | [] => Ok (inr (Got r, g))
                    | last :: rest => Ok (inl (g, values, (last ++ [r]) :: rest, path))
                    end
                end
            end
        end
    end.
  (** [FoldPath::next] fold_path.rs 44-92 (a new item, 71-77, as in ModelPipeColl), [FoldPath::new] 25-34. *)
  Definition ucfoldp_next : nat -> uconsumer P -> Res (option (result O) * uconsumer P) :=
    uconsume_next P (fun g : G => (g, [], [], [])) (fun st path => deeper (length (snd (fst st))) path)
      (fun st : cfoldp_st => match snd (fst st) with [] => Some (fst (fst (fst st))) | _ => None end)
      ucfoldp_close cfoldp_push (fun st => fst (fst (fst st))).
End UFoldPathTrees.

Section UBFoldPathTrees.
  Context {A G O : Type} (P : pipe (result A)).

  Variable f : G -> option O * option O -> list N -> A -> G * option O.
  (** fold_path.rs 147-156, 164-172. *)
  Definition ubcfoldp_close (st : @bcfoldp_st A G O) : Res (@bcfoldp_st A G O + result O * G) :=
    let '(g, values, folded, path) := st in
    match folded with
    | [] => Panic
    | items :: folded =>
        match values with
        | [] => Panic
        | value :: values =>
            match f g items (rev path) value with
            | (g, None) => Ok (inr (Unwound, g))
            | (g, Some r) =>
                match path with
                | [] => Panic
                | seg :: path =>
                    match folded with
                    | [] => Ok (inr (Got r, g))
                    | last :: rest => last <- set_slot seg last r ;; Ok (inl (g, values, last :: rest, path))
                    end
                end
            end
        end
    end.
  (** [BinaryFoldPath::next] fold_path.rs 133-176 (a new item: 159-161), [BinaryFoldPath::new] 113-122. *)
  Definition ubcfoldp_next : nat -> uconsumer P -> Res (option (result O) * uconsumer P) :=
    uconsume_next P (fun g : G => (g, [], [], [])) (fun st path => deeper (length (snd (fst st))) path)
      (fun st : bcfoldp_st => match snd (fst st) with [] => Some (fst (fst (fst st))) | _ => None end)
      ubcfoldp_close
      (fun st item ipath => let '(g, values, folded, path) := st in
         seg <- last_seg ipath ;; Ok (g, item :: values, (None, None) :: folded, seg :: path)) (fun st => fst (fst (fst st))).
End UBFoldPathTrees.
