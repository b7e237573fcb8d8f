(** * ProofsSpace: how much the iterators keep.

    A stack of children iterators fits below [H] if there are at most [H] of them, and if for each item still to come the
    levels up to it and the height of its tree are at most [H] together. *)
From Verif Require Import Prelim PrelimFacts Spec SpecFacts SpecPipe ModelNode NodeFacts ModelPre ModelPost ModelIn ModelBfs ModelLeaves ModelPipe ModelSpace.

(** ** Invariants *)
Lemma after_inv {S O} (next : nat -> S -> Res (O * S)) (I : S -> Prop) :
  (forall fuel s o s', I s -> next fuel s = Ok (o, s') -> I s') -> forall k s s', I s -> after next k s s' -> I s'.
Proof.
  intros Hn k s s' Hs (os & F & H); specialize (H F (Nat.le_refl F)); revert s os Hs H.
  induction k as [|k IH]; intros s os Hs H; cbn in H; [congruence|].
  destruct (next F s) as [[o s1]| | |] eqn:E; cbn in H; try discriminate.
  destruct (calls next k s1 F) as [[os1 s2]| | |] eqn:E1; cbn in H; try discriminate.
  injection H as _ <-; exact (IH s1 os1 (Hn _ _ _ _ Hs E) E1).
Qed.

Lemma loop_inv {S R} (body : nat -> S -> Res (S + R)) (I : S -> Prop) (J : R -> Prop) :
  (forall f s, I s -> match body f s with Ok (inl s') => I s' | Ok (inr r) => J r | _ => True end) ->
  forall fuel s r, I s -> loop body fuel s = Ok r -> J r.
Proof.
  intros Hb; induction fuel as [|f IH]; intros s r Hs H; cbn in H; [discriminate|].
  specialize (Hb f s Hs); destruct (body f s) as [[s'|r']| | |]; try discriminate; [exact (IH _ _ Hb H)|congruence].
Qed.

Lemma bind_ok {A B} (m : Res A) (f : A -> Res B) b : bindR m f = Ok b -> exists a, m = Ok a /\ f a = Ok b.
Proof. destruct m; cbn; intros H; try discriminate; eauto. Qed.

(** ** Heights *)
Lemma height_pos {A} (t : tree A) : 1 <= height t.
Proof. destruct t; cbn; lia. Qed.

Lemma height_kid {A} (t : tree A) ts v : In t ts -> height t < height (TNode v ts).
Proof.
  intros H; cbn [height]; apply Nat.lt_succ_r.
  pose proof (proj1 (list_max_le (map height ts) (list_max (map height ts))) (Nat.le_refl _)) as Hl.
  rewrite Forall_forall in Hl; apply Hl, in_map, H.
Qed.

Section Heights.
  Context {Nd V : Type} (gvc : Nd -> V * list Nd) (nt : Nd -> tree Nd) (Hnt : node_tree gvc nt).
  Lemma kids_lower n v ks : gvc n = (v, ks) -> Forall (fun m => height (nt m) < height (nt n)) ks.
  Proof.
    intros E; apply Forall_forall; intros m Hm; rewrite (Hnt n), E; apply height_kid, in_map; exact Hm.
  Qed.
End Heights.

Definition oheight {Nd} (bt : Nd -> btree Nd) (o : option Nd) : nat := match o with Some n => height (flat (bt n)) | None => 0 end.

Section BHeights.
  Context {Nd V : Type} (gvcb : Nd -> V * (option Nd * option Nd)) (bt : Nd -> btree Nd) (Hbt : node_btree gvcb bt).
  Lemma sides_lower n v l r : gvcb n = (v, (l, r)) -> oheight bt l < height (flat (bt n)) /\ oheight bt r < height (flat (bt n)).
  Proof.
    intros E; rewrite (Hbt n), E; cbn [fst snd flat option_map]; split.
    - destruct l as [m|]; cbn [oheight]; [apply height_kid; cbn; auto|eapply Nat.lt_le_trans; [apply Nat.lt_0_1|apply height_pos]].
    - destruct r as [m|]; cbn [oheight]; [apply height_kid, in_or_app; right; cbn; auto|eapply Nat.lt_le_trans; [apply Nat.lt_0_1|apply height_pos]].
  Qed.
End BHeights.

(** ** Stacks *)
Section Fits.
  Context {I : Type} (h : I -> nat) (H : nat).
  Fixpoint fits (stack : list (list I)) : Prop :=
    match stack with
    | [] => True
    | l :: rest => length stack <= H /\ Forall (fun i => length stack + h i <= H) l /\ fits rest
    end.
  Lemma fits_length stack : fits stack -> length stack <= H.
  Proof. destruct stack; cbn [fits]; [cbn; lia|tauto]. Qed.
  Lemma fits_push stack l hn : fits stack -> length stack + hn <= H -> 1 <= hn -> Forall (fun i => h i < hn) l -> fits (l :: stack).
  Proof.
    intros Hf Hn H1 Hl; cbn [fits length]; split; [lia|]; split; [|exact Hf].
    eapply Forall_impl; [|exact Hl]; cbn; intros; lia.
  Qed.
  Lemma fits_take i l rest : fits ((i :: l) :: rest) -> fits (l :: rest) /\ length (l :: rest) + h i <= H.
  Proof. cbn [fits]; intros (A & B & C); inversion B; subst; cbn [length] in *; auto. Qed.
  Lemma fits_tl stack : fits stack -> fits (tl stack).
  Proof. destruct stack; cbn [fits tl]; tauto. Qed.
End Fits.

Ltac okinv := repeat match goal with
  | H : Ok _ = Ok _ |- _ => injection H; clear H; intros; subst
  | H : bindR _ _ = Ok _ |- _ => apply bind_ok in H; destruct H as (? & ? & ?)
  | H : Panic = Ok _ |- _ => discriminate H
  end.

Section Nary.
  Context {Nd V : Type} (gvc : Nd -> V * list Nd) (nt : Nd -> tree Nd) (Hnt : node_tree gvc nt) (n0 : Nd).
  Notation h := (fun n => height (nt n)).
  Notation H := (height (nt n0)).
  Notation fits := (fits h H).

  Lemma push_kids n v ks stack : gvc n = (v, ks) -> fits stack -> length stack + h n <= H -> fits (ks :: stack).
  Proof. intros E Hf Hn; eapply fits_push; [exact Hf|exact Hn|apply height_pos|eapply kids_lower; eassumption]. Qed.

  (** Preorder *)
  Definition pre_inv (s : pre_iter Nd) : Prop := match pre_root s with Some n => n = n0 /\ pre_stack s = [] | None => fits (pre_stack s) end.
  Lemma pre_step fuel s o s' : pre_inv s -> pre_next gvc fuel s = Ok (o, s') -> pre_inv s'.
  Proof.
    unfold pre_inv, pre_next; destruct s as [[n|] stack]; cbn [pre_root pre_stack].
    - intros (-> & ->) E; destruct (gvc n0) as [v ks] eqn:Eg; injection E as <- <-; cbn [pre_root pre_stack]; eapply push_kids; [exact Eg|exact I|cbn; lia].
    - intros Hf E; apply bind_ok in E as ([next st] & E & E1).
      eapply (loop_inv _ fits (fun r => match fst r with Some m => fits (snd r) /\ length (snd r) + h m <= H | None => fits (snd r) end)) in E; [| |exact Hf]; cbn [fst snd] in E.
      + destruct next as [m|]; [|injection E1 as <- <-; exact E]; destruct (gvc m) as [v ks] eqn:Eg; injection E1 as <- <-; cbn [pre_root pre_stack]; destruct E; eapply push_kids; eassumption.
      + intros f [|[|m top] rest] Hs; cbn [pre_next_body fst snd]; [exact I|apply Hs|apply (fits_take h H m top rest Hs)].
  Qed.

  Lemma pre_space k s : after (pre_next gvc) k (pre_new n0) s -> length (pre_stack s) <= H.
  Proof.
    intros Ha; apply (after_inv _ pre_inv pre_step) in Ha; [|split; reflexivity].
    unfold pre_inv in Ha; destruct (pre_root s); [destruct Ha as (_ & ->); cbn; lia|eapply fits_length; exact Ha].
  Qed.

  (** Preorder with ancestors: one value per open iterator. *)
  Definition prea_inv (s : prea Nd V) : Prop :=
    match pa_root s with Some n => n = n0 /\ pa_stack s = [] /\ pa_items s = [] | None => fits (pa_stack s) /\ length (pa_items s) = length (pa_stack s) end.
  Lemma prea_step fuel s o s' : prea_inv s -> prea_next gvc fuel s = Ok (o, s') -> prea_inv s'.
  Proof.
    unfold prea_inv, prea_next, prea_advance; destruct s as [[n|] stack items]; cbn [pa_root pa_stack pa_items].
    - intros (-> & -> & ->) E; destruct (gvc n0) as [v ks] eqn:Eg; cbn in E; injection E as <- <-; cbn [pa_root pa_stack pa_items]; split; [|reflexivity].
      eapply push_kids; [exact Eg|exact I|cbn; lia].
    - intros (Hf & Hl) E; apply bind_ok in E as (s1 & E & E1); injection E1 as <- <-; apply bind_ok in E as ([[next st] its] & E & E1).
      eapply (loop_inv _ (fun r => fits (fst r) /\ length (snd r) = length (fst r))
        (fun r => length (snd r) = length (snd (fst r)) /\ fits (snd (fst r)) /\ match fst (fst r) with Some m => length (snd (fst r)) + h m <= H | None => True end)) in E; [| |split; [exact Hf|exact Hl]]; cbn [fst snd] in E.
      + destruct E as (E & Ef & Em); destruct next as [m|]; [|injection E1 as <-; cbn; auto].
        destruct (gvc m) as [v ks] eqn:Eg; injection E1 as <-; cbn [pa_root pa_stack pa_items]; split; [eapply push_kids; eassumption|cbn; lia].
      + intros f [[|[|m top] rest] its0] (Hs & Hl0); cbn [prea_body fst snd] in *; [auto| |].
        * split; [apply Hs|destruct its0; cbn in *; lia].
        * destruct (fits_take h H m top rest Hs); auto.
  Qed.

  Lemma prea_space k s : after (prea_next gvc) k (prea_new n0) s -> length (pa_stack s) <= H /\ length (pa_items s) <= H.
  Proof.
    intros Ha; apply (after_inv _ prea_inv prea_step) in Ha; [|repeat split; reflexivity].
    unfold prea_inv in Ha; destruct (pa_root s); [destruct Ha as (_ & -> & ->); cbn; lia|destruct Ha as (Hf & ->); apply fits_length in Hf; auto].
  Qed.

  (** Postorder, without and with ancestors: the same fields. *)
  Definition post_inv (d : nat) (s : post_iter Nd V) : Prop :=
    match po_root s with Some n => n = n0 /\ po_stack s = [] /\ po_items s = [] | None => fits (po_stack s) /\ length (po_items s) <= d + length (po_stack s) end.
  Lemma post_step fuel s o s' : post_inv 0 s -> post_next gvc fuel s = Ok (o, s') -> post_inv 0 s'.
  Proof.
    intros Hs E; eapply (loop_inv _ (post_inv 0) (fun r => post_inv 0 (snd r))) in E; [exact E| |exact Hs].
    clear -Hnt; intros f [[n|] items stack] Hs; unfold post_inv in *; cbn [po_root po_stack po_items] in *; unfold post_next_body; cbn [po_root po_stack po_items].
    - destruct Hs as (-> & -> & ->); destruct (gvc n0) as [v ks] eqn:Eg; cbn [po_root po_stack po_items length]; split; [|lia].
      eapply push_kids; [exact Eg|exact I|cbn; lia].
    - destruct Hs as (Hf & Hl); destruct stack as [|[|m top] rest]; cbn [snd po_root po_stack po_items].
      + destruct items; cbn in *; [auto|lia].
      + split; [apply Hf|destruct items; cbn in *; lia].
      + destruct (gvc m) as [v ks] eqn:Eg; cbn [po_root po_stack po_items]; destruct (fits_take h H m top rest Hf) as (Hf1 & Hm).
        split; [eapply push_kids; eassumption|cbn in *; lia].
  Qed.

  Lemma post_space k s : after (post_next gvc) k (post_new n0) s -> length (po_stack s) <= H /\ length (po_items s) <= H.
  Proof.
    intros Ha; apply (after_inv _ (post_inv 0) post_step) in Ha; [|repeat split; reflexivity].
    unfold post_inv in Ha; destruct (po_root s); [destruct Ha as (_ & -> & ->); cbn; lia|destruct Ha as (Hf & Hi); apply fits_length in Hf; lia].
  Qed.

  Definition posta_inv (s : post_iter Nd V) : Prop :=
    match po_root s with Some n => n = n0 /\ po_stack s = [] /\ po_items s = []
    | None => fits (po_stack s) /\ length (po_items s) <= S (length (po_stack s)) /\ length (po_items s) <= H end.
  Lemma posta_step fuel s o s' : posta_inv s -> posta_next gvc fuel s = Ok (o, s') -> posta_inv s'.
  Proof.
    intros Hs E; unfold posta_next, posta_advance in E; apply bind_ok in E as (s1 & E & E1); injection E1 as <- <-.
    assert (Hb : forall items stack r, fits stack -> length items <= length stack -> loop (posta_body gvc) fuel (items, stack) = Ok r ->
      fits (snd r) /\ length (fst r) <= S (length (snd r)) /\ length (fst r) <= H).
    { intros items stack r Hf Hl E0; eapply (loop_inv _ (fun r => fits (snd r) /\ length (fst r) <= length (snd r))
        (fun r => fits (snd r) /\ length (fst r) <= S (length (snd r)) /\ length (fst r) <= H)) in E0; [exact E0| |split; [exact Hf|exact Hl]].
      clear -Hnt; intros f [its [|[|m top] rest]] (Hf & Hl); cbn [posta_body fst snd] in *.
      - cbn in Hl; split; [exact I|lia].
      - pose proof (fits_length _ _ _ Hf); split; [apply Hf|cbn in *; lia].
      - destruct (gvc m) as [v ks] eqn:Eg; destruct (fits_take h H m top rest Hf) as (Hf1 & Hm); cbn [fst snd].
        split; [eapply push_kids; eassumption|cbn in *; lia]. }
    unfold posta_inv in *; destruct s as [[n|] items stack]; cbn [po_root po_stack po_items] in *.
    - destruct Hs as (-> & -> & ->); destruct (gvc n0) as [v ks] eqn:Eg; apply bind_ok in E as ([its st] & E & E1); injection E1 as <-.
      apply Hb in E; [exact E|eapply push_kids; [exact Eg|exact I|cbn; lia]|cbn; lia].
    - destruct Hs as (Hf & Hl & _); apply bind_ok in E as ([its st] & E & E1); injection E1 as <-.
      apply Hb in E; [exact E|exact Hf|destruct items; cbn in *; lia].
  Qed.

  Lemma posta_space k s : after (posta_next gvc) k (post_new n0) s -> length (po_stack s) <= H /\ length (po_items s) <= H.
  Proof.
    intros Ha; apply (after_inv _ posta_inv posta_step) in Ha; [|repeat split; reflexivity].
    unfold posta_inv in Ha; destruct (po_root s); [destruct Ha as (_ & -> & ->); cbn; lia|destruct Ha as (Hf & _ & Hi); apply fits_length in Hf; lia].
  Qed.

  (** Leaves of an iterator that has not been used. *)
  Definition dl_inv (s : dleaves Nd V) : Prop :=
    match dl_root s with Some n => n = n0 /\ dl_top s = [] /\ dl_bottom s = [] /\ dl_items s = []
    | None => fits (dl_top s ++ dl_bottom s) /\ length (dl_items s) <= length (dl_top s) end.
  Lemma dl_loop fuel b s o s' : dl_inv s -> dl_root s = None -> loop (dleaves_body gvc) fuel (b, s) = Ok (o, s') -> dl_inv s'.
  Proof.
    intros Hs Hr E; eapply (loop_inv _ (fun r => dl_inv (snd r) /\ dl_root (snd r) = None) (fun r => dl_inv (snd r))) in E; [exact E| |split; [exact Hs|exact Hr]].
    clear -Hnt; intros f [b s] (Hs & Hr); unfold dl_inv in *; cbn [snd] in *; rewrite Hr in Hs; destruct s as [root bot top items]; cbn [dl_root dl_top dl_bottom dl_items] in *; subst root.
    unfold dleaves_body; cbn [dl_root dl_top dl_bottom dl_items]; destruct Hs as (Hf & Hl), top as [|[|m top] rest]; cbn [app] in *.
    - destruct items; [|cbn in Hl; lia]; destruct bot as [|[|m it] rest]; cbn [snd dl_root dl_top dl_bottom dl_items app].
      + split; [exact I|cbn; lia].
      + split; [split; [apply Hf|cbn; lia]|reflexivity].
      + destruct (gvc m) as [v ks] eqn:Eg; cbn [snd dl_root dl_top dl_bottom dl_items app].
        destruct (fits_take h H m it rest Hf); split; [split; [eapply push_kids; eassumption|cbn; lia]|reflexivity].
    - assert (length (tl items) <= length rest) by (destruct items; cbn in *; lia).
      destruct b; cbn [snd dl_root dl_top dl_bottom dl_items]; [split; [apply Hf|assumption]|split; [split; [apply Hf|assumption]|reflexivity]].
    - destruct (gvc m) as [v ks] eqn:Eg; cbn [snd dl_root dl_top dl_bottom dl_items app].
      destruct (fits_take h H m top (rest ++ bot) Hf) as (Hf1 & Hm); split; [split; [eapply push_kids; eassumption|cbn in *; lia]|reflexivity].
  Qed.
  Lemma dl_step fuel s o s' : dl_inv s -> dleaves_next gvc fuel s = Ok (o, s') -> dl_inv s'.
  Proof.
    intros Hs E; unfold dleaves_next in E; destruct (dl_root s) as [n|] eqn:Er; [|eapply dl_loop; eassumption].
    unfold dl_inv in Hs; rewrite Er in Hs; destruct Hs as (-> & Et & Eb & Ei); rewrite Et, Eb, Ei in E; destruct (gvc n0) as [v ks] eqn:Eg.
    eapply dl_loop; [| |exact E]; [|reflexivity]; unfold dl_inv; cbn [dl_root dl_top dl_bottom dl_items app]; split; [|cbn; lia].
    eapply push_kids; [exact Eg|exact I|cbn; lia].
  Qed.

  Lemma dl_space k s : after (dleaves_next gvc) k (mkDl (Some n0) [] [] []) s ->
    length (dl_top s) + length (dl_bottom s) <= H /\ length (dl_items s) <= H.
  Proof.
    intros Ha; apply (after_inv _ dl_inv dl_step) in Ha; [|repeat split; reflexivity].
    unfold dl_inv in Ha; destruct (dl_root s); [destruct Ha as (_ & -> & -> & ->); cbn; lia|].
    destruct Ha as (Hf & Hi); apply fits_length in Hf; rewrite app_length in Hf; lia.
  Qed.

  (** Leaves with ancestors of an iterator that has not been used. *)
  Definition da_inv (s : daleaves Nd V) : Prop :=
    match da_root s with Some n => n = n0 /\ da_new s = [] /\ da_old s = [] /\ da_items s = []
    | None => fits (da_new s) /\ da_old s = [] /\ length (da_items s) <= S (length (da_new s)) /\ length (da_items s) <= H end.
  Lemma da_loop fuel b s s' : da_root s = None -> fits (da_new s) -> da_old s = [] -> length (da_items s) <= length (da_new s) ->
    loop (daleaves_body gvc) fuel (b, s) = Ok s' -> da_inv s'.
  Proof.
    intros Hr Hf Ho Hl E; eapply (loop_inv _ (fun r => da_root (snd r) = None /\ fits (da_new (snd r)) /\ da_old (snd r) = [] /\ length (da_items (snd r)) <= length (da_new (snd r))) da_inv) in E;
      [exact E| |cbn [snd]; auto].
    clear -Hnt; intros f [b s] (Hr & Hf & Ho & Hl); destruct s as [root items old new]; cbn [snd da_root da_new da_old da_items] in *; subst root old.
    unfold daleaves_body; cbn [da_root da_new da_old da_items]; destruct new as [|[|m top] rest].
    - destruct items; [|cbn in Hl; lia]; destruct b; cbn [tl]; unfold da_inv; cbn; repeat split; lia.
    - pose proof (fits_length _ _ _ Hf); assert (Hf1 : fits rest) by apply Hf; destruct b; cbn [tl].
      + unfold da_inv; cbn [da_root da_new da_old da_items]; repeat split; auto; cbn in *; lia.
      + assert (Hi : length (tl items) <= length rest) by (destruct items; cbn in *; lia).
        destruct (tl items) as [|v its]; [unfold da_inv|]; cbn [snd da_root da_new da_old da_items]; repeat split; auto; cbn in *; lia.
    - destruct (gvc m) as [v ks] eqn:Eg; cbn [snd da_root da_new da_old da_items]; destruct (fits_take h H m top rest Hf) as (Hf1 & Hm).
      split; [reflexivity|]; split; [eapply push_kids; eassumption|]; split; [reflexivity|cbn in *; lia].
  Qed.
  Lemma da_step fuel s o s' : da_inv s -> daleaves_next gvc fuel s = Ok (o, s') -> da_inv s'.
  Proof.
    intros Hs E; unfold daleaves_next, daleaves_advance in E; apply bind_ok in E as (s1 & E & E1); injection E1 as <- <-.
    unfold da_inv in Hs; destruct (da_root s) as [n|].
    - destruct Hs as (-> & En & Eo & Ei); rewrite En, Eo, Ei in E; destruct (gvc n0) as [v ks] eqn:Eg.
      eapply da_loop; [| | | |exact E]; cbn [da_root da_new da_old da_items]; try reflexivity; eapply push_kids; [exact Eg|exact I|cbn; lia].
    - destruct Hs as (Hf & Eo & Hi & _); eapply da_loop; [| | | |exact E]; cbn [da_root da_new da_old da_items]; auto.
      destruct (da_items s); cbn in *; lia.
  Qed.

  Lemma da_space k s : after (daleaves_next gvc) k (mkDa (Some n0) [] [] []) s ->
    length (da_new s) + length (da_old s) <= H /\ length (da_items s) <= H.
  Proof.
    intros Ha; apply (after_inv _ da_inv da_step) in Ha; [|repeat split; reflexivity].
    unfold da_inv in Ha; destruct (da_root s); [destruct Ha as (_ & -> & -> & ->); cbn; lia|].
    destruct Ha as (Hf & -> & _ & Hi); apply fits_length in Hf; cbn; lia.
  Qed.
End Nary.

(** Contexts: [I] and [C] as in the models, the search loop given by what it does to the stack. *)
Section Contexts.
  Context {Nd V I C : Type} (gv : Nd -> V * C) (into_iter : C -> list I) (hN : Nd -> nat) (hI : I -> nat) (n0 : Nd) (b : nat).
  Hypothesis Hpos : forall n, 1 <= hN n.
  Hypothesis Hkids : forall n v c, gv n = (v, c) -> Forall (fun i => hI i < hN n) (into_iter c).
  Notation H := (hN n0).
  Notation fits := (fits hI H).

  Lemma push_into n v c stack : gv n = (v, c) -> fits stack -> length stack + hN n <= H -> fits (into_iter c :: stack).
  Proof. intros E Hf Hn; eapply fits_push; [exact Hf|exact Hn|apply Hpos|eapply Hkids; exact E]. Qed.

  (** Preorder. *)
  Section Pre.
    Variable body : nat -> @pc_loop_st V I -> Res (@pc_loop_st V I + option Nd * @pc_loop_st V I).
    Hypothesis Hbody : forall f stack path anc,
      match body f (stack, path, anc) with
      | Ok (inl (stack', path', anc')) => exists l, stack = l :: stack' /\ length path' = pred (length path) /\ anc' = tl anc
      | Ok (inr (None, (stack', path', anc'))) => stack = [] /\ stack' = [] /\ path' = path /\ anc' = anc
      | Ok (inr (Some n, (stack', path', anc'))) => length path' = length path /\ anc' = anc /\
          exists l l' rest, stack = l :: rest /\ stack' = l' :: rest /\ incl l' l /\ exists i, In i l /\ hN n = hI i
      | _ => True
      end.
    Definition prec_inv (s : prec Nd V I C) : Prop :=
      match pc_root s with
      | Some n => n = n0 /\ pc_stack s = [] /\ length (pc_path s) <= b /\ pc_anc s = []
      | None => pc_anc s = [] /\ pc_stack s = [] /\ length (pc_path s) <= b \/
          length (pc_anc s) = S (length (pc_stack s)) /\ length (pc_path s) <= b + length (pc_stack s) /\ fits (pc_stack s) /\
          exists n v c, pc_children s = Some c /\ gv n = (v, c) /\ length (pc_stack s) + hN n <= H
      end.

    Lemma take_item l l' (rest : list (list I)) : incl l' l -> fits (l :: rest) -> fits (l' :: rest).
    Proof. cbn [ProofsSpace.fits length]; intros Hi (A & B & D); split; [exact A|]; split; [|exact D]; rewrite Forall_forall in *; auto. Qed.
    Lemma item_height l (rest : list (list I)) i : In i l -> fits (l :: rest) -> length (l :: rest) + hI i <= H.
    Proof. cbn [ProofsSpace.fits]; intros Hi (A & B & D); rewrite Forall_forall in B; auto. Qed.

    Lemma prec_search fuel stack path anc o stack' path' anc' : length anc = length stack -> length path <= b + length stack -> fits stack ->
      loop body fuel (stack, path, anc) = Ok (o, (stack', path', anc')) ->
      length anc' = length stack' /\ length path' <= b + length stack' /\ fits stack' /\ match o with Some n => length stack' + hN n <= H | None => stack' = [] end.
    Proof.
      intros Ha Hp Hf E.
      apply (loop_inv body (fun s => let '(stack, path, anc) := s in length anc = length stack /\ length path <= b + length stack /\ fits stack)
        (fun r => let '(o, (stack, path, anc)) := r in length anc = length stack /\ length path <= b + length stack /\ fits stack /\ match o with Some n => length stack + hN n <= H | None => stack = [] end)) in E;
        [exact E| |auto].
      clear -Hbody; intros f [[st pa] an] (Ha & Hp & Hf); specialize (Hbody f st pa an); destruct (body f (st, pa, an)) as [[[[st1 pa1] an1]|[[m|] [[st1 pa1] an1]]]| | |]; auto.
      - destruct Hbody as (l & -> & Hp1 & ->); cbn [length] in *; repeat split; [destruct an; cbn in *; lia|lia|apply Hf].
      - destruct Hbody as (Hp1 & -> & l & l' & rest & -> & -> & Hi & i & Hin & ->); cbn [length] in *; split; [lia|]; split; [lia|]; split; [eapply take_item; eassumption|].
        exact (item_height l rest i Hin Hf).
      - destruct Hbody as (-> & -> & -> & ->); auto.
    Qed.

    Lemma prec_step get fuel s (o : option (tree_context V C)) s' : prec_inv s ->
      bindR (prec_advance_with gv into_iter body fuel s) (fun s' => Ok (get s', s')) = Ok (o, s') -> prec_inv s'.
    Proof.
      intros Hs E; apply bind_ok in E as (s1 & E & E1); injection E1 as _ <-; unfold prec_advance_with in E; unfold prec_inv in Hs.
      destruct s as [[n|] stack path anc ch]; cbn [pc_root pc_stack pc_path pc_anc pc_children] in *.
      - destruct Hs as (-> & -> & Hp & ->); destruct (gv n0) as [v c] eqn:Eg; injection E as <-; right; cbn [pc_stack pc_path pc_anc pc_children length].
        split; [reflexivity|]; split; [lia|]; split; [exact Logic.I|]; exists n0, v, c; auto.
      - destruct Hs as [(-> & -> & Hp)|(Ha & Hp & Hf & n & v & c & -> & Eg & Hn)]; [injection E as <-; left; auto|].
        destruct anc as [|a anc]; [discriminate Ha|]; apply bind_ok in E as ([next [[st pa] an]] & E & E1).
        apply prec_search in E; [|cbn in *; lia|cbn in *; lia|eapply push_into; eassumption].
        destruct E as (Ha1 & Hp1 & Hf1 & Hn1), next as [m|].
        + destruct (gv m) as [w d] eqn:Eg1; injection E1 as <-; right; cbn [pc_stack pc_path pc_anc pc_children length].
          split; [lia|]; split; [exact Hp1|]; split; [exact Hf1|]; exists m, w, d; auto.
        + subst st; injection E1 as <-; left; cbn [pc_stack pc_path pc_anc length] in *; repeat split; lia.
    Qed.

    Lemma prec_bounds s : prec_inv s -> length (pc_stack s) <= H /\ length (pc_path s) <= b + H /\ length (pc_anc s) <= H.
    Proof.
      unfold prec_inv; destruct (pc_root s); [intros (_ & -> & Hp & ->); cbn; lia|]; intros [(-> & -> & Hp)|(Ha & Hp & Hf & n & v & c & _ & _ & Hn)]; [cbn; lia|].
      specialize (Hpos n); lia.
    Qed.
  End Pre.

  (** Postorder without children. *)
  Section PostOwned.
    Variable body : nat -> @pto_loop_st V I -> Res (@pto_loop_st V I + @pto_loop_st V I).
    Hypothesis Hbody : forall f stack path anc,
      match body f (stack, path, anc) with
      | Ok (inl (stack', path', anc')) => length path' = S (length path) /\ length anc' = S (length anc) /\
          exists l l' rest n v c, stack = l :: rest /\ stack' = into_iter c :: l' :: rest /\ incl l' l /\ gv n = (v, c) /\ exists i, In i l /\ hN n = hI i
      | Ok (inr (stack', path', anc')) => stack' = tl stack /\ length path' = pred (length path) /\ anc' = anc
      | _ => True
      end.
    Definition postco_inv (s : postc_owned Nd V I) : Prop :=
      match pto_root s with
      | Some n => n = n0 /\ pto_stack s = [] /\ length (pto_path s) <= b /\ pto_anc s = []
      | None => pto_anc s = [] /\ pto_stack s = [] /\ length (pto_path s) <= b \/
          length (pto_anc s) = S (length (pto_stack s)) /\ length (pto_path s) <= b + length (pto_stack s) /\ fits (pto_stack s) /\ length (pto_anc s) <= H
      end.

    Lemma postco_search fuel stack path anc stack' path' anc' : stack <> [] -> length anc = length stack -> length path <= b + length stack -> fits stack ->
      loop body fuel (stack, path, anc) = Ok (stack', path', anc') ->
      length anc' = S (length stack') /\ length path' <= b + length stack' /\ fits stack' /\ length anc' <= H.
    Proof.
      intros Hne Ha Hp Hf E.
      apply (loop_inv body (fun s => let '(stack, path, anc) := s in stack <> [] /\ length anc = length stack /\ length path <= b + length stack /\ fits stack)
        (fun r => let '(stack, path, anc) := r in length anc = S (length stack) /\ length path <= b + length stack /\ fits stack /\ length anc <= H)) in E;
        [exact E| |auto].
      clear -Hbody Hkids Hpos; intros f [[st pa] an] (Hne & Ha & Hp & Hf); specialize (Hbody f st pa an); destruct (body f (st, pa, an)) as [[[[st1 pa1] an1]|[[st1 pa1] an1]]| | |]; auto.
      - destruct Hbody as (Hp1 & Ha1 & l & l' & rest & n & v & c & -> & -> & Hi & Eg & i & Hin & Eh); cbn [length] in *; split; [discriminate|]; split; [lia|]; split; [lia|].
        eapply push_into; [exact Eg|eapply take_item; eassumption|]; rewrite Eh; exact (item_height l rest i Hin Hf).
      - destruct Hbody as (-> & Hp1 & ->); pose proof (fits_length _ _ _ Hf); destruct st as [|l rest]; [congruence|]; cbn [tl length] in *.
        repeat split; [lia|lia|apply Hf|lia].
    Qed.

    Lemma postco_step get fuel s (o : option (tree_context V unit)) s' : postco_inv s ->
      bindR (postco_advance_with gv into_iter body fuel s) (fun s' => Ok (get s', s')) = Ok (o, s') -> postco_inv s'.
    Proof.
      intros Hs E; apply bind_ok in E as (s1 & E & E1); injection E1 as _ <-; unfold postco_advance_with in E; unfold postco_inv in Hs.
      destruct s as [[n|] stack path anc]; cbn [pto_root pto_stack pto_path pto_anc] in *.
      - destruct Hs as (-> & -> & Hp & ->); destruct (gv n0) as [v c] eqn:Eg; apply bind_ok in E as ([[st pa] an] & E & E1); injection E1 as <-; right.
        cbn [pto_stack pto_path pto_anc]; eapply postco_search; [| | | |exact E]; try reflexivity; [discriminate|cbn [length]; lia|eapply push_into; [exact Eg|exact Logic.I|cbn; lia]].
      - destruct Hs as [(-> & -> & Hp)|(Ha & Hp & Hf & Hh)]; [cbn in E; injection E as <-; left; auto|].
        destruct anc as [|a [|a' anc]]; [discriminate Ha| |]; cbn [tl] in E.
        + cbn in Ha; destruct stack; [|cbn in Ha; lia]; injection E as <-; left; cbn [pto_stack pto_path pto_anc length] in *; repeat split; lia.
        + apply bind_ok in E as ([[st pa] an] & E & E1); injection E1 as <-; right; cbn [pto_stack pto_path pto_anc].
          eapply postco_search; [| | | |exact E]; [destruct stack; [cbn in Ha; lia|discriminate]|cbn in *; lia|exact Hp|exact Hf].
    Qed.

    Lemma postco_bounds s : postco_inv s -> length (pto_stack s) <= H /\ length (pto_path s) <= b + H /\ length (pto_anc s) <= H.
    Proof.
      unfold postco_inv; destruct (pto_root s); [intros (_ & -> & Hp & ->); cbn; lia|]; intros [(-> & -> & Hp)|(Ha & Hp & Hf & Hh)]; cbn; lia.
    Qed.
  End PostOwned.

  (** Postorder with children: one container more per level. *)
  Section PostBorrowed.
    Variable body : nat -> @pt_loop_st V I C -> Res (@pt_loop_st V I C + @pt_loop_st V I C * C).
    Hypothesis Hbody : forall f stack conts path anc,
      match body f (stack, conts, path, anc) with
      | Ok (inl (stack', conts', path', anc')) => length conts' = S (length conts) /\ length path' = S (length path) /\ length anc' = S (length anc) /\
          exists l l' rest n v c, stack = l :: rest /\ stack' = into_iter c :: l' :: rest /\ incl l' l /\ gv n = (v, c) /\ exists i, In i l /\ hN n = hI i
      | Ok (inr (stack', conts', path', anc', _)) => stack' = tl stack /\ length conts' = pred (length conts) /\ length path' = pred (length path) /\ anc' = anc
      | _ => True
      end.
    Definition postc_inv (s : postc Nd V I C) : Prop :=
      match ModelPost.pt_root s with
      | Some n => n = n0 /\ ModelPost.pt_stack s = [] /\ ModelPost.pt_conts s = [] /\ length (ModelPost.pt_path s) <= b /\ ModelPost.pt_anc s = []
      | None => ModelPost.pt_anc s = [] /\ ModelPost.pt_stack s = [] /\ ModelPost.pt_conts s = [] /\ length (ModelPost.pt_path s) <= b \/
          length (ModelPost.pt_anc s) = S (length (ModelPost.pt_stack s)) /\ length (ModelPost.pt_conts s) = length (ModelPost.pt_stack s) /\ length (ModelPost.pt_path s) <= b + length (ModelPost.pt_stack s) /\ fits (ModelPost.pt_stack s) /\ length (ModelPost.pt_anc s) <= H
      end.

    Lemma postc_search fuel stack conts path anc stack' conts' path' anc' c0 : stack <> [] -> length anc = length stack -> length conts = length stack -> length path <= b + length stack -> fits stack ->
      loop body fuel (stack, conts, path, anc) = Ok (stack', conts', path', anc', c0) ->
      length anc' = S (length stack') /\ length conts' = length stack' /\ length path' <= b + length stack' /\ fits stack' /\ length anc' <= H.
    Proof.
      intros Hne Ha Hc Hp Hf E.
      apply (loop_inv body (fun s => let '(stack, conts, path, anc) := s in stack <> [] /\ length anc = length stack /\ length conts = length stack /\ length path <= b + length stack /\ fits stack)
        (fun r => let '(stack, conts, path, anc, _) := r in length anc = S (length stack) /\ length conts = length stack /\ length path <= b + length stack /\ fits stack /\ length anc <= H)) in E;
        [exact E| |tauto].
      clear -Hbody Hkids Hpos; intros f [[[st co] pa] an] (Hne & Ha & Hc & Hp & Hf); specialize (Hbody f st co pa an).
      destruct (body f (st, co, pa, an)) as [[[[[st1 co1] pa1] an1]|[[[[st1 co1] pa1] an1] c1]]| | |]; auto.
      - destruct Hbody as (Hc1 & Hp1 & Ha1 & l & l' & rest & n & v & c & -> & -> & Hi & Eg & i & Hin & Eh); cbn [length] in *; split; [discriminate|].
        split; [lia|]; split; [lia|]; split; [lia|].
        eapply push_into; [exact Eg|eapply take_item; eassumption|]; rewrite Eh; exact (item_height l rest i Hin Hf).
      - destruct Hbody as (-> & Hc1 & Hp1 & ->); pose proof (fits_length _ _ _ Hf); destruct st as [|l rest]; [congruence|]; cbn [tl length] in *.
        repeat split; [lia|lia|lia|apply Hf|lia].
    Qed.

    Lemma postc_step get fuel s (o : option (tree_context V C)) s' : postc_inv s ->
      bindR (postc_advance_with gv into_iter body fuel s) (fun s' => Ok (get s', s')) = Ok (o, s') -> postc_inv s'.
    Proof.
      intros Hs E; apply bind_ok in E as (s1 & E & E1); injection E1 as _ <-; unfold postc_advance_with in E; unfold postc_inv in Hs.
      destruct s as [[n|] stack conts path anc ch]; cbn [ModelPost.pt_root ModelPost.pt_stack ModelPost.pt_conts ModelPost.pt_path ModelPost.pt_anc] in *.
      - destruct Hs as (-> & -> & -> & Hp & ->); destruct (gv n0) as [v c] eqn:Eg; apply bind_ok in E as ([[[[st co] pa] an] c1] & E & E1); injection E1 as <-; right.
        cbn [ModelPost.pt_stack ModelPost.pt_conts ModelPost.pt_path ModelPost.pt_anc]; eapply postc_search; [| | | | |exact E]; try reflexivity; [discriminate|cbn [length]; lia|eapply push_into; [exact Eg|exact Logic.I|cbn; lia]].
      - destruct Hs as [(-> & -> & -> & Hp)|(Ha & Hc & Hp & Hf & Hh)]; [cbn in E; injection E as <-; left; auto|].
        destruct anc as [|a [|a' anc]]; [discriminate Ha| |]; cbn [tl] in E.
        + cbn in Ha; destruct stack; [|cbn in Ha; lia]; destruct conts; [|discriminate]; injection E as <-; left.
          cbn [ModelPost.pt_stack ModelPost.pt_conts ModelPost.pt_path ModelPost.pt_anc length] in *; repeat split; lia.
        + apply bind_ok in E as ([[[[st co] pa] an] c1] & E & E1); injection E1 as <-; right; cbn [ModelPost.pt_stack ModelPost.pt_conts ModelPost.pt_path ModelPost.pt_anc].
          eapply postc_search; [| | | | |exact E]; [destruct stack; [cbn in Ha; lia|discriminate]|cbn in *; lia|exact Hc|exact Hp|exact Hf].
    Qed.

    Lemma postc_bounds s : postc_inv s -> length (ModelPost.pt_stack s) <= H /\ length (ModelPost.pt_conts s) <= H /\ length (ModelPost.pt_path s) <= b + H /\ length (ModelPost.pt_anc s) <= H.
    Proof.
      unfold postc_inv; destruct (ModelPost.pt_root s); [intros (_ & -> & -> & Hp & ->); cbn; lia|]; intros [(-> & -> & -> & Hp)|(Ha & Hc & Hp & Hf & Hh)]; cbn; lia.
    Qed.
  End PostBorrowed.
End Contexts.

(** The search loops of the models. *)
Lemma incr_last_length path path' : incr_last path = Ok path' -> length path' = length path.
Proof. unfold incr_last; destruct path as [|x p]; [discriminate|]; intros E; injection E as <-; reflexivity. Qed.

Lemma prec_scan_ok {Nd} (top : list (option Nd)) : forall path o top' path', prec_scan top path = Ok (o, top', path') ->
  length path' = length path /\ match o with Some n => incl top' top /\ In (Some n) top | None => True end.
Proof.
  induction top as [|i top IH]; intros path o top' path' E; cbn [prec_scan] in E; [injection E as <- <- <-; auto|].
  apply bind_ok in E as (p1 & E1 & E); apply incr_last_length in E1; destruct i as [n|].
  - injection E as <- <- <-; repeat split; [exact E1|apply incl_tl, incl_refl|left; reflexivity].
  - destruct (IH _ _ _ _ E) as (A & B); split; [lia|]; destruct o as [n|]; [|exact Logic.I]; destruct B; split; [apply incl_tl; assumption|right; assumption].
Qed.

Section ContextSpace.
  Context {Nd V : Type}.
  Section N.
    Context (gvc : Nd -> V * list Nd) (nt : Nd -> tree Nd) (Hnt : node_tree gvc nt) (n0 : Nd).
    Notation h := (fun n => height (nt n)).
    Let Hpos : forall n, 1 <= h n := fun n => height_pos (nt n).
    Let Hkids : forall n v c, gvc n = (v, c) -> Forall (fun i => h i < h n) ((fun l => l) c) := kids_lower gvc nt Hnt.

    Lemma prec_keeps b fuel s1 o s2 : prec_inv gvc h h n0 b s1 -> prec_next gvc fuel s1 = Ok (o, s2) -> prec_inv gvc h h n0 b s2.
    Proof.
      intros H1 E; refine (prec_step gvc (fun l => l) h h n0 b Hpos Hkids prec_body _ prec_get fuel s1 o s2 H1 E).
      clear; intros f st pa an; unfold prec_body; destruct st as [|[|m top] rest]; [auto| |].
      - exists []; repeat split; destruct pa; reflexivity.
      - destruct (incr_last pa) as [p1| | |] eqn:E; cbn [bindR]; auto; apply incr_last_length in E.
        repeat split; [exact E|]; exists (m :: top), top, rest; repeat split; [apply incl_tl, incl_refl|]; exists m; split; [left|]; reflexivity.
    Qed.
    Lemma prec_space k s : after (prec_next gvc) k (prec_new n0 []) s ->
      length (pc_stack s) <= h n0 /\ length (pc_path s) <= h n0 /\ length (pc_anc s) <= h n0.
    Proof.
      intros Ha; apply (after_inv _ (prec_inv gvc h h n0 0) (prec_keeps 0)) in Ha; [eapply prec_bounds in Ha; [exact Ha|exact Hpos]|repeat split; cbn; lia].
    Qed.

    Lemma postco_keeps b fuel s1 o s2 : postco_inv h h n0 b s1 -> postco_next gvc fuel s1 = Ok (o, s2) -> postco_inv h h n0 b s2.
    Proof.
      intros H1 E; refine (postco_step gvc (fun l => l) h h n0 b Hpos Hkids (postco_body gvc) _ postco_get fuel s1 o s2 H1 E).
      clear; intros f st pa an; unfold postco_body; destruct st as [|[|m top] rest]; [repeat split; destruct pa; reflexivity|repeat split; destruct pa; reflexivity|].
      destruct (incr_last pa) as [p1| | |] eqn:E; cbn [bindR]; auto; apply incr_last_length in E; destruct (gvc m) as [v ks] eqn:Eg.
      cbn [length]; repeat split; [congruence|]; exists (m :: top), top, rest, m, v, ks; repeat split; auto; [apply incl_tl, incl_refl|]; exists m; split; [left|]; reflexivity.
    Qed.
    Lemma postco_space k s : after (postco_next gvc) k (postco_new n0 []) s ->
      length (pto_stack s) <= h n0 /\ length (pto_path s) <= h n0 /\ length (pto_anc s) <= h n0.
    Proof.
      intros Ha; apply (after_inv _ (postco_inv h h n0 0) (postco_keeps 0)) in Ha; [eapply postco_bounds in Ha; exact Ha|repeat split; cbn; lia].
    Qed.

    Lemma postc_keeps b fuel s1 o s2 : postc_inv h h n0 b s1 -> postc_next gvc fuel s1 = Ok (o, s2) -> postc_inv h h n0 b s2.
    Proof.
      intros H1 E; refine (postc_step gvc (fun l => l) h h n0 b Hpos Hkids (postc_body gvc) _ postc_get fuel s1 o s2 H1 E).
      clear; intros f st co pa an; unfold postc_body; destruct st as [|[|m top] rest];
        [destruct co; [exact Logic.I|]; repeat split; destruct pa; reflexivity|destruct co; [exact Logic.I|]; repeat split; destruct pa; reflexivity|].
      destruct (incr_last pa) as [p1| | |] eqn:E; cbn [bindR]; auto; apply incr_last_length in E; destruct (gvc m) as [v ks] eqn:Eg.
      cbn [length]; repeat split; [congruence|]; exists (m :: top), top, rest, m, v, ks; repeat split; auto; [apply incl_tl, incl_refl|]; exists m; split; [left|]; reflexivity.
    Qed.
    Lemma postc_space k s : after (postc_next gvc) k (postc_new n0 []) s ->
      length (ModelPost.pt_stack s) <= h n0 /\ length (ModelPost.pt_conts s) <= h n0 /\ length (ModelPost.pt_path s) <= h n0 /\ length (ModelPost.pt_anc s) <= h n0.
    Proof.
      intros Ha; apply (after_inv _ (postc_inv h h n0 0) (postc_keeps 0)) in Ha; [eapply postc_bounds in Ha; exact Ha|repeat split; cbn; lia].
    Qed.
  End N.

  Section B.
    Context (gvcb : Nd -> V * (option Nd * option Nd)) (bt : Nd -> btree Nd) (Hbt : node_btree gvcb bt) (n0 : Nd).
    Notation h := (fun n => height (flat (bt n))).
    Let Hpos : forall n, 1 <= h n := fun n => height_pos (flat (bt n)).
    Let Hkids : forall n v c, gvcb n = (v, c) -> Forall (fun i => oheight bt i < h n) (pair_iter c).
    Proof. intros n v [l r] E; destruct (sides_lower gvcb bt Hbt n v l r E); repeat constructor; assumption. Qed.

    Lemma precb_keeps b fuel s1 o s2 : prec_inv gvcb h (oheight bt) n0 b s1 -> precb_next gvcb pair_iter fuel s1 = Ok (o, s2) -> prec_inv gvcb h (oheight bt) n0 b s2.
    Proof.
      intros H1 E; refine (prec_step gvcb pair_iter h (oheight bt) n0 b Hpos Hkids precb_body _ prec_get fuel s1 o s2 H1 E).
      clear; intros f st pa an; unfold precb_body; destruct st as [|top rest]; [auto|].
      destruct (prec_scan top pa) as [[[[m|] top'] p1]| | |] eqn:E; cbn [bindR]; auto; apply prec_scan_ok in E as (E & Hi).
      - repeat split; [exact E|]; exists top, top', rest; repeat split; [apply Hi|]; exists (Some m); split; [apply Hi|reflexivity].
      - exists top; repeat split; rewrite <- E; destruct p1; reflexivity.
    Qed.
    Lemma precb_space k s : after (precb_next gvcb pair_iter) k (prec_new n0 []) s ->
      length (pc_stack s) <= h n0 /\ length (pc_path s) <= h n0 /\ length (pc_anc s) <= h n0.
    Proof.
      intros Ha; apply (after_inv _ (prec_inv gvcb h (oheight bt) n0 0) (precb_keeps 0)) in Ha; [eapply prec_bounds in Ha; [exact Ha|exact Hpos]|repeat split; cbn; lia].
    Qed.

    Lemma postcob_keeps b fuel s1 o s2 : postco_inv h (oheight bt) n0 b s1 -> postcob_next gvcb pair_iter fuel s1 = Ok (o, s2) -> postco_inv h (oheight bt) n0 b s2.
    Proof.
      intros H1 E; refine (postco_step gvcb pair_iter h (oheight bt) n0 b Hpos Hkids (postcob_body gvcb pair_iter) _ postco_get fuel s1 o s2 H1 E).
      clear; intros f st pa an; unfold postcob_body; destruct st as [|top rest]; [repeat split; destruct pa; reflexivity|].
      destruct (prec_scan top pa) as [[[[m|] top'] p1]| | |] eqn:E; cbn [bindR]; auto; apply prec_scan_ok in E as (E & Hi).
      - destruct (gvcb m) as [v ks] eqn:Eg; cbn [length]; repeat split; [congruence|]; exists top, top', rest, m, v, ks; repeat split; auto; [apply Hi|]; exists (Some m); split; [apply Hi|reflexivity].
      - repeat split; rewrite <- E; destruct p1; reflexivity.
    Qed.
    Lemma postcob_space k s : after (postcob_next gvcb pair_iter) k (postco_new n0 []) s ->
      length (pto_stack s) <= h n0 /\ length (pto_path s) <= h n0 /\ length (pto_anc s) <= h n0.
    Proof.
      intros Ha; apply (after_inv _ (postco_inv h (oheight bt) n0 0) (postcob_keeps 0)) in Ha; [eapply postco_bounds in Ha; exact Ha|repeat split; cbn; lia].
    Qed.

    Lemma postcb_keeps b fuel s1 o s2 : postc_inv h (oheight bt) n0 b s1 -> postcb_next gvcb pair_iter fuel s1 = Ok (o, s2) -> postc_inv h (oheight bt) n0 b s2.
    Proof.
      intros H1 E; refine (postc_step gvcb pair_iter h (oheight bt) n0 b Hpos Hkids (postcb_body gvcb pair_iter) _ postc_get fuel s1 o s2 H1 E).
      clear; intros f st co pa an; unfold postcb_body; destruct st as [|top rest]; [destruct co; [exact Logic.I|]; repeat split; destruct pa; reflexivity|].
      destruct (prec_scan top pa) as [[[[m|] top'] p1]| | |] eqn:E; cbn [bindR]; auto; apply prec_scan_ok in E as (E & Hi).
      - destruct (gvcb m) as [v ks] eqn:Eg; cbn [length]; repeat split; [congruence|]; exists top, top', rest, m, v, ks; repeat split; auto; [apply Hi|]; exists (Some m); split; [apply Hi|reflexivity].
      - destruct co; [exact Logic.I|]; repeat split; rewrite <- E; destruct p1; reflexivity.
    Qed.
    Lemma postcb_space k s : after (postcb_next gvcb pair_iter) k (postc_new n0 []) s ->
      length (ModelPost.pt_stack s) <= h n0 /\ length (ModelPost.pt_conts s) <= h n0 /\ length (ModelPost.pt_path s) <= h n0 /\ length (ModelPost.pt_anc s) <= h n0.
    Proof.
      intros Ha; apply (after_inv _ (postc_inv h (oheight bt) n0 0) (postcb_keeps 0)) in Ha; [eapply postc_bounds in Ha; exact Ha|repeat split; cbn; lia].
    Qed.
  End B.
End ContextSpace.

(** ** Inorder *)
Section Inorder.
  Context {Nd V : Type} (gvcb : Nd -> V * (option Nd * option Nd)) (bt : Nd -> btree Nd) (Hbt : node_btree gvcb bt) (n0 : Nd).
  Notation h := (fun n => height (flat (bt n))).
  Notation oh := (oheight bt).
  Notation H := (height (flat (bt n0))).

  (** The plain iterator: each right child still to come lies at least as deep as there are entries below it. *)
  Fixpoint rfits (rights : list (option Nd)) : Prop :=
    match rights with [] => True | r :: rest => length rights <= H /\ length rest + oh r <= H /\ rfits rest end.
  Lemma rfits_length rights : rfits rights -> length rights <= H.
  Proof. destruct rights; cbn [rfits]; [cbn; lia|tauto]. Qed.
  Definition in_inv (s : in_iter Nd V) : Prop := rfits (in_right s) /\ length (in_items s) <= length (in_right s).

  Lemma in_find fuel rights (items : list V) r : rfits rights -> length items <= length rights ->
    loop in_find_body fuel (rights, items) = Ok r ->
    match r with
    | inl (o, items', rights') => rfits rights' /\ length items' <= length rights'
    | inr (cur, rights') => rfits rights' /\ length rights' + oh cur <= H /\ length items <= length rights'
    end.
  Proof.
    intros Hf Hl E.
    apply (loop_inv in_find_body (fun s => rfits (fst s) /\ length (snd s) <= length (fst s) /\ snd s = items)
      (fun r => match r with
        | inl (o, items', rights') => rfits rights' /\ length items' <= length rights'
        | inr (cur, rights') => rfits rights' /\ length rights' + oh cur <= H /\ length items <= length rights'
        end)) in E; [exact E| |auto].
    clear -bt; intros f [rights it] (Hf & Hl & Ei); cbn [fst snd] in *; subst it; unfold in_find_body.
    destruct (length rights =? length items) eqn:El.
    - split; [exact Hf|destruct items; cbn in *; lia].
    - apply Nat.eqb_neq in El; destruct rights as [|r rest]; [destruct items; cbn in *; lia|].
      cbn [rfits length] in Hf, Hl, El; destruct Hf as (_ & Hr & Hf); destruct rest as [|r1 rest]; [split; [exact Hf|split; [exact Hr|cbn in *; lia]]|].
      destruct r as [m|]; cbn [fst snd]; [|split; [exact Hf|split; [lia|reflexivity]]].
      split; [exact Hf|]; split; [exact Hr|lia].
  Qed.

  Lemma in_descend fuel cur rights items rights' items' : rfits rights -> length rights + oh cur <= H -> length items <= length rights ->
    loop (in_descend_body gvcb) fuel (cur, rights, items) = Ok (rights', items') -> rfits rights' /\ length items' <= length rights'.
  Proof.
    intros Hf Hc Hl E.
    apply (loop_inv _ (fun s => let '(cur, rights, items) := s in rfits rights /\ length rights + oh cur <= H /\ length items <= length rights)
      (fun r => rfits (fst r) /\ length (snd r) <= length (fst r))) in E; [exact E| |auto].
    clear -Hbt; intros f [[cur rights] items] (Hf & Hc & Hl); unfold in_descend_body; destruct cur as [m|]; [|cbn [fst snd]; auto].
    destruct (gvcb m) as [v [l r]] eqn:Eg; destruct (sides_lower gvcb bt Hbt m v l r Eg) as (A & B); cbn [oheight] in Hc.
    cbn [rfits length]; repeat split; [lia|lia|exact Hf|lia|lia].
  Qed.

  Lemma in_step fuel s o s' : in_inv s -> in_next gvcb fuel s = Ok (o, s') -> in_inv s'.
  Proof.
    intros (Hf & Hl) E; unfold in_next in E; apply bind_ok in E as (r & E & E1); apply in_find in E; [|exact Hf|exact Hl].
    destruct r as [[[o1 items1] rights1]|[cur rights1]].
    - injection E1 as _ <-; exact E.
    - destruct E as (A & B & D); apply bind_ok in E1 as ([rights2 items2] & E1 & E2); apply in_descend in E1; [|assumption..].
      injection E2 as _ <-; destruct E1 as (A1 & B1); split; cbn [in_right in_items]; [exact A1|destruct items2; cbn in *; lia].
  Qed.
  Lemma in_space k s : after (in_next gvcb) k (in_new n0) s -> length (in_right s) <= H /\ length (in_items s) <= H.
  Proof.
    intros Ha; apply (after_inv _ in_inv in_step) in Ha.
    - destruct Ha as (A & B); apply rfits_length in A; lia.
    - split; cbn [in_new in_right in_items rfits length oheight]; [|lia]; pose proof (height_pos (flat (bt n0))); repeat split; lia.
  Qed.

  (** With ancestors: a node that is on the way down the left side or has just been reported still owns an entry of the
      stack of right children, one whose right side is being traversed does not. *)
  Fixpoint owns (st : list status) (rights : list (option Nd)) : Prop :=
    match st with
    | [] => rights = []
    | WentRight :: st' => length st <= H /\ owns st' rights
    | _ :: st' => length st <= H /\ match rights with [] => False | r :: rights' => length st + oh r <= H /\ owns st' rights' end
    end.
  Lemma owns_status st : forall rights, owns st rights -> length st <= H /\ length rights <= length st.
  Proof.
    induction st as [|x st IH]; cbn [owns]; intros rights Ho; [subst; cbn; lia|].
    destruct x; [destruct Ho as (A & Ho); destruct rights as [|r rights]; [contradiction|]; destruct Ho as (B & Ho)..|destruct Ho as (A & Ho)];
      apply IH in Ho; cbn [length] in *; lia.
  Qed.
  Lemma owns_enter st rights m v l r : gvcb m = (v, (l, r)) -> owns st rights -> length st + h m <= H ->
    owns (WentLeft :: st) (r :: rights) /\ length (WentLeft :: st) + oh l <= H.
  Proof.
    intros Eg Ho Hm; destruct (sides_lower gvcb bt Hbt m v l r Eg) as (A & B); cbn [owns length]; split; [split; [lia|split; [lia|exact Ho]]|lia].
  Qed.
  Lemma owns_return st rights : owns (WentLeft :: st) rights -> owns (ReturnedSelf :: st) rights.
  Proof. exact (fun x => x). Qed.
  Lemma owns_right st r rights : owns (ReturnedSelf :: st) (r :: rights) -> owns (WentRight :: st) rights /\ length (WentRight :: st) + oh r <= H.
  Proof. cbn [owns length]; tauto. Qed.
  Lemma owns_left_tl st rights : owns (WentRight :: st) rights -> owns st rights.
  Proof. cbn [owns]; tauto. Qed.

  (** Before the first call nothing is owned by anybody: the root is the only entry. *)
  Definition starts (st : list status) (rights : list (option Nd)) : Prop := st = [] /\ rights = [Some n0].

  Definition ina_inv (s : ina Nd V) : Prop :=
    length (ia_items s) = length (ia_status s) /\ (starts (ia_status s) (ia_right s) \/ owns (ia_status s) (ia_right s)).
  Lemma ina_find fuel s r : ina_inv s -> loop ina_find_body fuel s = Ok r ->
    match r with
    | Return s' => ina_inv s'
    | Descend m s' => length (ia_items s') = length (ia_status s') /\ owns (ia_status s') (ia_right s') /\ length (ia_status s') + h m <= H
    end.
  Proof.
    apply (loop_inv ina_find_body ina_inv (fun r => match r with
      | Return s' => ina_inv s'
      | Descend m s' => length (ia_items s') = length (ia_status s') /\ owns (ia_status s') (ia_right s') /\ length (ia_status s') + h m <= H
      end)).
    clear -bt; intros f [rights items st] (Hl & Ho); unfold ina_find_body, ina_inv in *; cbn [ia_status ia_right ia_items] in *.
    destruct st as [|[| |] st].
    - destruct Ho as [(_ & ->)|Ho]; [cbn [ia_status ia_right ia_items owns length] in *; repeat split; lia|]; cbn [owns] in Ho; subst rights; cbn; auto.
    - destruct Ho as [(X & _)|Ho]; [discriminate|]; cbn [ia_status ia_right ia_items]; split; [exact Hl|right; apply owns_return; exact Ho].
    - destruct Ho as [(X & _)|Ho]; [discriminate|]; destruct rights as [|r rights]; [cbn in Ho; tauto|]; apply owns_right in Ho as (A & B).
      destruct r as [m|]; cbn [ia_status ia_right ia_items]; [split; [exact Hl|split; [exact A|exact B]]|split; [exact Hl|right; exact A]].
    - destruct Ho as [(X & _)|Ho]; [discriminate|]; cbn [ia_status ia_right ia_items]; split; [destruct items; cbn in *; lia|right; eapply owns_left_tl; exact Ho].
  Qed.
  Definition came_down (cur : option Nd) (st : list status) : Prop := cur <> None \/ exists st', st = WentLeft :: st'.
  Lemma ina_descend fuel m s s' : length (ia_items s) = length (ia_status s) -> owns (ia_status s) (ia_right s) -> length (ia_status s) + h m <= H ->
    loop (ina_descend_body gvcb) fuel (Some m, s) = Ok s' ->
    length (ia_items s') = length (ia_status s') /\ owns (ia_status s') (ia_right s') /\ came_down None (ia_status s').
  Proof.
    intros Hl Ho Hc E.
    apply (loop_inv _ (fun r => length (ia_items (snd r)) = length (ia_status (snd r)) /\ owns (ia_status (snd r)) (ia_right (snd r)) /\
        length (ia_status (snd r)) + oh (fst r) <= H /\ came_down (fst r) (ia_status (snd r)))
      (fun s' => length (ia_items s') = length (ia_status s') /\ owns (ia_status s') (ia_right s') /\ came_down None (ia_status s'))) in E;
      [exact E| |repeat split; auto; left; discriminate].
    clear -Hbt; intros f [cur s] (Hl & Ho & Hc & Hd); cbn [fst snd] in *; unfold ina_descend_body; destruct cur as [m|]; [|auto].
    destruct (gvcb m) as [v [l r]] eqn:Eg; destruct (owns_enter _ _ m v l r Eg Ho Hc) as (A & B); cbn [fst snd ia_status ia_right ia_items].
    split; [cbn; lia|]; split; [exact A|]; split; [exact B|right; eauto].
  Qed.
  Lemma ina_step fuel s o s' : ina_inv s -> ina_next gvcb fuel s = Ok (o, s') -> ina_inv s'.
  Proof.
    intros Hs E; unfold ina_next, ina_advance in E; apply bind_ok in E as (s1 & E & E1); injection E1 as _ <-.
    apply bind_ok in E as (r & E & E1); apply ina_find in E; [|exact Hs]; destruct r as [s2|m s2]; [injection E1 as <-; exact E|].
    destruct E as (A & B & D); apply bind_ok in E1 as (s3 & E1 & E2); apply ina_descend in E1; [|assumption..].
    destruct E1 as (A1 & B1 & [D1|(st3 & D1)]); [congruence|]; rewrite D1 in *; apply bind_ok in E2 as (st & E2 & E3); injection E2 as <-; injection E3 as <-.
    split; cbn [ia_status ia_right ia_items]; [exact A1|right; apply owns_return; exact B1].
  Qed.
  Lemma ina_space k s : after (ina_next gvcb) k (ina_new n0) s ->
    length (ia_right s) <= H /\ length (ia_items s) <= H /\ length (ia_status s) <= H.
  Proof.
    intros Ha; apply (after_inv _ ina_inv ina_step) in Ha; [|split; [reflexivity|left; split; reflexivity]].
    destruct Ha as (A & [(B & C)|B]); [rewrite A, B, C; cbn; pose proof (height_pos (flat (bt n0))); lia|].
    apply owns_status in B; lia.
  Qed.

  (** Contexts: the path is one shorter than the ancestors, and a container is kept for every node not reported yet. *)
  Section Base.
  Variable b : nat.
  Definition inco_inv (s : inco Nd V) : Prop :=
    length (io_anc s) = length (io_status s) /\ length (io_path s) <= b + pred (length (io_status s)) /\
    (starts (io_status s) (io_right s) \/ owns (io_status s) (io_right s)).
  Definition inco_ok (s : inco Nd V) : Prop :=
    length (io_anc s) = length (io_status s) /\ length (io_path s) <= b + pred (length (io_status s)) /\ owns (io_status s) (io_right s).
  Lemma inco_find fuel s r : inco_inv s -> loop inco_find_body fuel s = Ok r ->
    match r with
    | Return s' => inco_inv s'
    | Descend m s' => inco_ok s' /\ length (io_status s') + h m <= H
    end.
  Proof.
    apply (loop_inv inco_find_body inco_inv (fun r => match r with
      | Return s' => inco_inv s'
      | Descend m s' => inco_ok s' /\ length (io_status s') + h m <= H
      end)).
    clear -bt; intros f [rights path anc st] (Hl & Hp & Ho); unfold inco_find_body, inco_inv, inco_ok in *; cbn [io_status io_right io_anc io_path] in *.
    destruct st as [|[| |] st].
    - destruct Ho as [(_ & ->)|Ho]; cbn [io_status io_right io_anc io_path]; [cbn [owns length pred] in *; repeat split; auto; lia|]; cbn [owns] in Ho; subst rights; cbn; auto.
    - destruct Ho as [(X & _)|Ho]; [discriminate|]; cbn [io_status io_right io_anc io_path]; split; [exact Hl|]; split; [exact Hp|right; apply owns_return; exact Ho].
    - destruct Ho as [(X & _)|Ho]; [discriminate|]; destruct rights as [|r rights]; [cbn in Ho; tauto|]; apply owns_right in Ho as (A & B).
      destruct r as [m|]; cbn [io_status io_right io_anc io_path]; [split; [split; [exact Hl|split; [exact Hp|exact A]]|exact B]|split; [exact Hl|split; [exact Hp|right; exact A]]].
    - destruct Ho as [(X & _)|Ho]; [discriminate|]; cbn [io_status io_right io_anc io_path]; split; [destruct anc; cbn in *; lia|].
      split; [destruct path; cbn in *; lia|right; eapply owns_left_tl; exact Ho].
  Qed.
  Lemma push_segment_length st path : length path <= b + pred (length st) -> length (push_segment st path) <= b + length st.
  Proof. destruct st as [|[| |] st]; cbn; lia. Qed.
  Lemma inco_descend fuel m s s' : inco_ok s -> length (io_status s) + h m <= H ->
    loop (inco_descend_body gvcb) fuel (Some m, s) = Ok s' -> inco_ok s' /\ came_down None (io_status s').
  Proof.
    intros Hs Hc E.
    apply (loop_inv _ (fun r => inco_ok (snd r) /\ length (io_status (snd r)) + oh (fst r) <= H /\ came_down (fst r) (io_status (snd r)))
      (fun s' => inco_ok s' /\ came_down None (io_status s'))) in E;
      [exact E| |split; [exact Hs|split; [exact Hc|left; discriminate]]].
    clear -Hbt; intros f [cur s] ((Hl & Hp & Ho) & Hc & Hd); cbn [fst snd] in *; unfold inco_descend_body; destruct cur as [m|]; [|unfold inco_ok; auto].
    destruct (gvcb m) as [v [l r]] eqn:Eg; destruct (owns_enter _ _ m v l r Eg Ho Hc) as (A & B); unfold inco_ok; cbn [fst snd io_status io_right io_anc io_path].
    split; [|split; [exact B|right; eauto]]; split; [cbn; lia|]; split; [apply push_segment_length; exact Hp|exact A].
  Qed.
  Lemma inco_step fuel s o s' : inco_inv s -> inco_next gvcb fuel s = Ok (o, s') -> inco_inv s'.
  Proof.
    intros Hs E; unfold inco_next, inco_advance in E; apply bind_ok in E as (s1 & E & E1); injection E1 as _ <-.
    apply bind_ok in E as (r & E & E1); apply inco_find in E; [|exact Hs]; destruct r as [s2|m s2]; [injection E1 as <-; exact E|].
    destruct E as (A & D); apply bind_ok in E1 as (s3 & E1 & E2); apply inco_descend in E1; [|assumption..].
    destruct E1 as ((A1 & P1 & B1) & [D1|(st3 & D1)]); [congruence|]; rewrite D1 in *; apply bind_ok in E2 as (st & E2 & E3); injection E2 as <-; injection E3 as <-.
    split; cbn [io_status io_right io_anc io_path]; [exact A1|]; split; [exact P1|right; apply owns_return; exact B1].
  Qed.

  Fixpoint lefts (st : list status) : nat := match st with [] => 0 | WentLeft :: st' => S (lefts st') | _ :: st' => lefts st' end.
  Lemma lefts_length st : lefts st <= length st.
  Proof. induction st as [|[| |] st IH]; cbn; lia. Qed.
  Definition inc_inv (s : inc Nd V) : Prop :=
    length (ic_anc s) = length (ic_status s) /\ length (ic_path s) <= b + pred (length (ic_status s)) /\ length (ic_conts s) = lefts (ic_status s) /\
    (starts (ic_status s) (ic_right s) \/ owns (ic_status s) (ic_right s)).
  Definition inc_ok (s : inc Nd V) : Prop :=
    length (ic_anc s) = length (ic_status s) /\ length (ic_path s) <= b + pred (length (ic_status s)) /\ length (ic_conts s) = lefts (ic_status s) /\ owns (ic_status s) (ic_right s).
  Lemma inc_find fuel s r : inc_inv s -> loop inc_find_body fuel s = Ok r ->
    match r with
    | Return s' => inc_inv s'
    | Descend m s' => inc_ok s' /\ length (ic_status s') + h m <= H
    end.
  Proof.
    apply (loop_inv inc_find_body inc_inv (fun r => match r with
      | Return s' => inc_inv s'
      | Descend m s' => inc_ok s' /\ length (ic_status s') + h m <= H
      end)).
    clear -bt; intros f [rights path anc ch conts st] (Hl & Hp & Hk & Ho); unfold inc_find_body, inc_inv, inc_ok in *; cbn [ic_status ic_right ic_anc ic_path ic_conts] in *.
    destruct st as [|[| |] st].
    - destruct Ho as [(_ & ->)|Ho]; cbn [ic_status ic_right ic_anc ic_path ic_conts]; [cbn [owns length pred lefts] in *; repeat split; auto; lia|]; cbn [owns] in Ho; subst rights; cbn; auto.
    - destruct Ho as [(X & _)|Ho]; [discriminate|]; destruct conts as [|c conts]; [exact Logic.I|]; cbn [ic_status ic_right ic_anc ic_path ic_conts].
      split; [exact Hl|]; split; [exact Hp|]; split; [cbn in *; lia|right; apply owns_return; exact Ho].
    - destruct Ho as [(X & _)|Ho]; [discriminate|]; destruct rights as [|r rights]; [cbn in Ho; tauto|]; apply owns_right in Ho as (A & B).
      destruct r as [m|]; cbn [ic_status ic_right ic_anc ic_path ic_conts]; [split; [split; [exact Hl|split; [exact Hp|split; [exact Hk|exact A]]]|exact B]|split; [exact Hl|split; [exact Hp|split; [exact Hk|right; exact A]]]].
    - destruct Ho as [(X & _)|Ho]; [discriminate|]; cbn [ic_status ic_right ic_anc ic_path ic_conts]; split; [destruct anc; cbn in *; lia|].
      split; [destruct path; cbn in *; lia|split; [exact Hk|]; right; eapply owns_left_tl; exact Ho].
  Qed.
  Lemma inc_descend fuel m s s' : inc_ok s -> length (ic_status s) + h m <= H ->
    loop (inc_descend_body gvcb) fuel (Some m, s) = Ok s' -> inc_ok s' /\ came_down None (ic_status s').
  Proof.
    intros Hs Hc E.
    apply (loop_inv _ (fun r => inc_ok (snd r) /\ length (ic_status (snd r)) + oh (fst r) <= H /\ came_down (fst r) (ic_status (snd r)))
      (fun s' => inc_ok s' /\ came_down None (ic_status s'))) in E;
      [exact E| |split; [exact Hs|split; [exact Hc|left; discriminate]]].
    clear -Hbt; intros f [cur s] ((Hl & Hp & Hk & Ho) & Hc & Hd); cbn [fst snd] in *; unfold inc_descend_body; destruct cur as [m|]; [|unfold inc_ok; auto].
    destruct (gvcb m) as [v [l r]] eqn:Eg; destruct (owns_enter _ _ m v l r Eg Ho Hc) as (A & B); unfold inc_ok; cbn [fst snd ic_status ic_right ic_anc ic_path ic_conts].
    split; [|split; [exact B|right; eauto]]; split; [cbn; lia|]; split; [apply push_segment_length; exact Hp|split; [cbn; lia|exact A]].
  Qed.
  Lemma inc_step fuel s o s' : inc_inv s -> inc_next gvcb fuel s = Ok (o, s') -> inc_inv s'.
  Proof.
    intros Hs E; unfold inc_next, inc_advance in E; apply bind_ok in E as (s1 & E & E1); injection E1 as _ <-.
    apply bind_ok in E as (r & E & E1); apply inc_find in E; [|exact Hs]; destruct r as [s2|m s2]; [injection E1 as <-; exact E|].
    destruct E as (A & D); apply bind_ok in E1 as (s3 & E1 & E2); apply inc_descend in E1; [|assumption..].
    destruct E1 as ((A1 & P1 & K1 & B1) & [D1|(st3 & D1)]); [congruence|]; rewrite D1 in *; apply bind_ok in E2 as (st & E2 & E3); injection E2 as <-.
    destruct (ic_conts s3) as [|c conts]; [discriminate|]; injection E3 as <-.
    split; cbn [ic_status ic_right ic_anc ic_path ic_conts]; [exact A1|]; split; [exact P1|]; split; [cbn in *; lia|right; apply owns_return; exact B1].
  Qed.
  Lemma inco_bounds s : inco_inv s -> length (io_right s) <= H /\ length (io_path s) <= b + H /\ length (io_anc s) <= H /\ length (io_status s) <= H.
  Proof.
    intros (A & P & [(B & C)|B]); [rewrite A, B, C in *; pose proof (height_pos (flat (bt n0))); cbn [length pred] in *; lia|].
    apply owns_status in B; lia.
  Qed.
  Lemma inc_bounds s : inc_inv s ->
    length (ic_right s) <= H /\ length (ic_path s) <= b + H /\ length (ic_anc s) <= H /\ length (ic_conts s) <= H /\ length (ic_status s) <= H.
  Proof.
    intros (A & P & K & [(B & C)|B]); [rewrite A, K, B, C in *; pose proof (height_pos (flat (bt n0))); cbn [length pred lefts] in *; lia|].
    pose proof (lefts_length (ic_status s)); apply owns_status in B; lia.
  Qed.
  Lemma inco_start path : length path <= b -> inco_inv (inco_new n0 path).
  Proof. intros Hp; split; [reflexivity|]; split; [cbn; rewrite rev_length; lia|left; split; reflexivity]. Qed.
  Lemma inc_start path : length path <= b -> inc_inv (inc_new n0 path).
  Proof. intros Hp; split; [reflexivity|]; split; [cbn; rewrite rev_length; lia|]; split; [reflexivity|left; split; reflexivity]. Qed.
  End Base.
  Lemma inco_space k s : after (inco_next gvcb) k (inco_new n0 []) s ->
    length (io_right s) <= H /\ length (io_path s) <= H /\ length (io_anc s) <= H /\ length (io_status s) <= H.
  Proof. intros Ha; apply (after_inv _ (inco_inv 0) (inco_step 0)) in Ha; [apply (inco_bounds 0); exact Ha|apply inco_start; cbn; lia]. Qed.
  Lemma inc_space k s : after (inc_next gvcb) k (inc_new n0 []) s ->
    length (ic_right s) <= H /\ length (ic_path s) <= H /\ length (ic_anc s) <= H /\ length (ic_conts s) <= H /\ length (ic_status s) <= H.
  Proof. intros Ha; apply (after_inv _ (inc_inv 0) (inc_step 0)) in Ha; [apply (inc_bounds 0); exact Ha|apply inc_start; cbn; lia]. Qed.

End Inorder.

(** ** Breadth first *)
Lemma level_S {Nd V} (gvc : Nd -> V * list Nd) (nt : Nd -> tree Nd) (Hnt : node_tree gvc nt) d : forall n,
  level (S d) (nt n) = flat_map (fun m => snd (gvc m)) (level d (nt n)).
Proof.
  induction d as [|d IH]; intros n; rewrite (Hnt n); destruct (gvc n) as [v ks] eqn:Eg; cbn [fst snd level].
  - cbn [flat_map]; rewrite Eg, app_nil_r; cbn [snd]; clear Eg; induction ks as [|m ks IHk]; [reflexivity|]; cbn [map flat_map]; rewrite IHk, (Hnt m); reflexivity.
  - change (flat_map (level (S d)) (map nt ks) = flat_map (fun m => snd (gvc m)) (flat_map (level d) (map nt ks))).
    clear Eg; induction ks as [|m ks IHk]; [reflexivity|]; cbn [map]; change (level (S d) (nt m) ++ flat_map (level (S d)) (map nt ks) =
      flat_map (fun m => snd (gvc m)) (level d (nt m) ++ flat_map (level d) (map nt ks))); rewrite flat_map_app, IHk, (IH m); reflexivity.
Qed.

Section Queue.
  Context {Nd I : Type} (kids : Nd -> list I) (live : I -> list Nd) (t : tree Nd).
  Hypothesis Hlevel : forall d, level (S d) t = flat_map (fun m => flat_map live (kids m)) (level d t).

  (** The children iterators of the last level that is finished (those not used up), then those of the part of the next
      level already reported. *)
  Definition queued (q : list (list I)) : Prop := exists d done A B,
    q = A ++ B /\ level (S d) t = done ++ flat_map (flat_map live) A /\ B = map kids done /\ length A <= length (level d t).

  Definition two_levels (k : nat) : Prop := exists d, k <= length (level d t) + length (level (S d) t).

  Lemma queued_bound q : queued q -> two_levels (length q).
  Proof.
    intros (d & done & A & B & -> & El & -> & Hl); exists d; rewrite app_length, map_length, El, app_length; lia.
  Qed.
  Lemma two_levels_le j k : j <= k -> two_levels k -> two_levels j.
  Proof. intros Hj (d & Hd); exists d; lia. Qed.

  Lemma queued_front l q : queued (l :: q) -> exists d done A B,
    q = A ++ B /\ level (S d) t = done ++ flat_map live l ++ flat_map (flat_map live) A /\ B = map kids done /\ S (length A) <= length (level d t).
  Proof.
    intros (d & done & A & B & E & El & EB & Hl); destruct A as [|a A].
    - cbn [app flat_map] in *; subst B; rewrite app_nil_r in El; exists (S d), [], q, []; rewrite app_nil_r; split; [reflexivity|]; split.
      + rewrite Hlevel, El; cbn [app]; transitivity (flat_map (flat_map live) (l :: q)); [|reflexivity].
        rewrite EB, !flat_map_concat_map, map_map; f_equal; apply map_ext; intros; rewrite flat_map_concat_map; reflexivity.
      + split; [reflexivity|]; rewrite El; apply (f_equal (@length _)) in EB; rewrite map_length in EB; cbn [length] in EB; lia.
    - injection E as <- ->; exists d, done, A, B; cbn [flat_map length] in *; auto.
  Qed.

  Lemma queued_pop l q : flat_map live l = [] -> queued (l :: q) -> queued q.
  Proof.
    intros E H; apply queued_front in H as (d & done & A & B & -> & El & EB & Hl); rewrite E in El; exists d, done, A, B; repeat split; auto; lia.
  Qed.

  Lemma queued_take l l' q n : flat_map live l = n :: flat_map live l' -> queued (l :: q) -> queued ((l' :: q) ++ [kids n]).
  Proof.
    intros E H; apply queued_front in H as (d & done & A & B & -> & El & EB & Hl); rewrite E in El; exists d, (done ++ [n]), (l' :: A), (B ++ [kids n]).
    split; [cbn [app]; rewrite <- app_assoc; reflexivity|]; split; [rewrite El; cbn [flat_map]; rewrite <- app_assoc; reflexivity|].
    split; [rewrite map_app, EB; reflexivity|exact Hl].
  Qed.

  Lemma queued_root n : level 0 t = [n] -> queued [kids n].
  Proof.
    intros E; exists 0, [], [kids n], []; split; [reflexivity|]; split; [rewrite Hlevel, E; cbn [flat_map app]; reflexivity|]; split; [reflexivity|].
    rewrite E; cbn; lia.
  Qed.
  Lemma queued_nil : queued [].
  Proof.
    exists (height t), [], [], []; repeat split; [|cbn; lia]; rewrite (level_above_height t) by lia; reflexivity.
  Qed.
End Queue.

Section BfsSpace.
  Context {Nd V : Type} (gvc : Nd -> V * list Nd) (nt : Nd -> tree Nd) (Hnt : node_tree gvc nt) (n0 : Nd).
  Notation kids := (fun m => snd (gvc m)).
  Notation t := (nt n0).
  Notation live := (fun n : Nd => [n]).
  Notation Q := (queued kids live t).

  Lemma live_all (l : list Nd) : flat_map live l = l.
  Proof. induction l as [|x l IH]; [reflexivity|]; cbn; rewrite IH; reflexivity. Qed.
  Lemma Hlevel d : level (S d) t = flat_map (fun m => flat_map live (kids m)) (level d t).
  Proof. rewrite (level_S gvc nt Hnt); apply flat_map_ext; intros; rewrite live_all; reflexivity. Qed.
  Lemma level_0 : level 0 t = [n0].
  Proof. rewrite (Hnt n0); reflexivity. Qed.
  Lemma take n v ks l q : gvc n = (v, ks) -> Q ((n :: l) :: q) -> Q ((l :: q) ++ [ks]).
  Proof. intros E H; change ks with (snd (v, ks)); rewrite <- E; apply (queued_take kids live t Hlevel (n :: l)); [reflexivity|exact H]. Qed.
  Lemma pop q : Q ([] :: q) -> Q q.
  Proof. apply (queued_pop kids live t Hlevel); reflexivity. Qed.
  Lemma root v ks : gvc n0 = (v, ks) -> Q [ks].
  Proof. intros E; change ks with (snd (v, ks)); rewrite <- E; apply (queued_root kids live t Hlevel), level_0. Qed.

  Definition bfs_inv (s : bfs_iter Nd) : Prop := match bfs_root s with Some n => n = n0 /\ bfs_queue s = [] | None => Q (bfs_queue s) end.
  Lemma bfs_step fuel s o s' : bfs_inv s -> bfs_next gvc fuel s = Ok (o, s') -> bfs_inv s'.
  Proof.
    intros Hs E; unfold bfs_next in E; unfold bfs_inv in Hs; destruct (bfs_root s) as [n|].
    - destruct Hs as (-> & Eq); rewrite Eq in E; destruct (gvc n0) as [v ks] eqn:Eg; injection E as _ <-; exact (root v ks Eg).
    - apply (loop_inv _ Q (fun r => bfs_inv (snd r))) in E; [exact E| |exact Hs].
      clear -Hnt; intros f q Hq; unfold bfs_next_body; destruct q as [|[|n l] q]; [exact Hq|apply pop; exact Hq|].
      destruct (gvc n) as [v ks] eqn:Eg; exact (take n v ks l q Eg Hq).
  Qed.
  Lemma bfs_space k s : after (bfs_next gvc) k (bfs_new n0) s -> two_levels t (length (bfs_queue s)).
  Proof.
    intros Ha; apply (after_inv _ bfs_inv bfs_step) in Ha; [|split; reflexivity].
    unfold bfs_inv in Ha; destruct (bfs_root s); [destruct Ha as (_ & ->)|eapply queued_bound; exact Ha]; exists 0; cbn; lia.
  Qed.

  Definition bl_inv (s : bleaves Nd) : Prop :=
    match bl_root s with Some n => n = n0 /\ bl_old s = [] /\ bl_new s = [] | None => bl_old s = [] /\ Q (bl_new s) end.
  Lemma bl_bfs fuel s o s' : bl_inv s -> bleaves_bfs_next gvc fuel s = Ok (o, s') -> bl_inv s'.
  Proof.
    intros Hs E; unfold bleaves_bfs_next in E; unfold bl_inv in Hs; destruct (bl_root s) as [n|] eqn:Er.
    - destruct Hs as (-> & Eo & Eq); rewrite Eo, Eq in E; destruct (gvc n0) as [v ks] eqn:Eg; injection E as _ <-; split; [reflexivity|exact (root v ks Eg)].
    - apply (loop_inv _ (fun s => bl_root s = None /\ bl_old s = [] /\ Q (bl_new s)) (fun r => bl_inv (snd r))) in E; [exact E| |auto].
      clear -Hnt; intros f [r old new] (Hr & Ho & Hq); unfold bleaves_bfs_body; cbn [bl_root bl_old bl_new] in *; subst r old.
      destruct new as [|[|n l] q]; [split; auto|cbn [bl_root bl_old bl_new]; auto using pop|].
      destruct (gvc n) as [v ks] eqn:Eg; split; [reflexivity|exact (take n v ks l q Eg Hq)].
  Qed.
  Lemma bl_step fuel s o s' : bl_inv s -> bleaves_next gvc fuel s = Ok (o, s') -> bl_inv s'.
  Proof.
    intros Hs E; apply (loop_inv _ bl_inv (fun r => bl_inv (snd r))) in E; [exact E| |exact Hs].
    clear -Hnt; intros f s Hs; unfold bleaves_body; destruct (bleaves_bfs_next gvc f s) as [[o s1]| | |] eqn:E; cbn [bindR]; auto.
    apply bl_bfs in E; [|exact Hs]; destruct o as [[[|] v]|]; exact E.
  Qed.
  Lemma bl_space k s : after (bleaves_next gvc) k (bfs_leaves (bfs_new n0)) s -> two_levels t (length (bl_old s) + length (bl_new s)).
  Proof.
    intros Ha; apply (after_inv _ bl_inv bl_step) in Ha; [|repeat split; reflexivity].
    unfold bl_inv in Ha; destruct (bl_root s); [destruct Ha as (_ & -> & ->); exists 0; cbn; lia|destruct Ha as (-> & Ha); eapply queued_bound; exact Ha].
  Qed.

  Lemma ba_step fuel s o s' : Q (ba_queue s) -> bfsa_next gvc fuel s = Ok (o, s') -> Q (ba_queue s').
  Proof.
    intros Hs E; unfold bfsa_next, bfsa_advance in E; apply bind_ok in E as (s1 & E & E1); injection E1 as _ <-.
    destruct (ba_is_root s); [injection E as <-; exact Hs|].
    apply (loop_inv _ (fun s => Q (ba_queue s)) (fun s => Q (ba_queue s))) in E; [exact E| |exact Hs].
    clear -Hnt; intros f s Hs; unfold bfsa_advance_body; destruct (maybe_pop _) as [[[items cache] stack]| | |]; cbn [bindR]; auto.
    destruct (ba_queue s) as [|[|n l] q]; [exact Logic.I| |].
    - destruct (to_next_parent f (items, cache, stack)) as [[[items1 cache1] stack1]| | |]; cbn [bindR]; auto; apply pop in Hs; destruct q; exact Hs.
    - destruct (gvc n) as [v ks] eqn:Eg; exact (take n v ks l q Eg Hs).
  Qed.
  Lemma ba_start : Q (ba_queue (bfsa_new gvc n0)).
  Proof. unfold bfsa_new; destruct (gvc n0) as [v ks] eqn:Eg; exact (root v ks Eg). Qed.
  Lemma ba_space k s : after (bfsa_next gvc) k (bfsa_new gvc n0) s -> two_levels t (length (ba_queue s)).
  Proof. intros Ha; apply (after_inv _ (fun s => Q (ba_queue s)) ba_step) in Ha; [eapply queued_bound; exact Ha|exact ba_start]. Qed.

  Lemma bal_step fuel s o s' : Q (ba_queue s) -> baleaves_next gvc fuel s = Ok (o, s') -> Q (ba_queue s').
  Proof.
    intros Hs E; unfold baleaves_next, baleaves_advance in E; apply bind_ok in E as (s1 & E & E1); injection E1 as _ <-.
    apply (loop_inv _ (fun s => Q (ba_queue s)) (fun s => Q (ba_queue s))) in E; [exact E| |exact Hs].
    clear -Hnt; intros f s Hs; unfold baleaves_body; destruct (ba_queue s) as [|front q]; [exact Hs|].
    destruct (maybe_pop _) as [[[items cache] stack]| | |]; cbn [bindR]; auto; destruct front as [|n l].
    - destruct (ba_is_root s); [exact Hs|].
      destruct (to_next_parent f (items, cache, stack)) as [[[items1 cache1] stack1]| | |]; cbn [bindR]; auto; apply pop; exact Hs.
    - destruct (gvc n) as [v ks] eqn:Eg; destruct (negb (is_nil ks)); exact (take n v ks l q Eg Hs).
  Qed.
  Lemma bal_space k s : after (baleaves_next gvc) k (bfsa_leaves (bfsa_new gvc n0)) s -> two_levels t (length (ba_queue s)).
  Proof. intros Ha; apply (after_inv _ (fun s => Q (ba_queue s)) bal_step) in Ha; [eapply queued_bound; exact Ha|exact ba_start]. Qed.
End BfsSpace.

(** Contexts: the children of the current node are put in the queue by the next call. *)
Section BfsContextSpace.
  Context {Nd V I C : Type} (gv : Nd -> V * C) (into_iter : C -> list I) (live : I -> list Nd) (t : tree Nd).
  Notation kids := (fun m => into_iter (snd (gv m))).
  Notation Q := (queued kids live t).
  Variable body : nat -> bfsc V I C -> Res (bfsc V I C + bfsc V I C).
  Definition bc_inv (s : bfsc V I C) : Prop :=
    bc_anc s = [] /\ bc_queue s = [] \/ exists c, bc_children s = Some c /\ Q (bc_queue s ++ [into_iter c]).
  Hypothesis Hbody : forall f s, Q (bc_queue s) ->
    match body f s with Ok (inl s') => Q (bc_queue s') | Ok (inr s') => bc_inv s' | _ => True end.
  Lemma bc_step get fuel s (o : option (tree_context V C)) s' : bc_inv s ->
    bindR (bfsc_advance_with into_iter body fuel s) (fun s' => Ok (get s', s')) = Ok (o, s') -> bc_inv s'.
  Proof.
    intros Hs E; apply bind_ok in E as (s1 & E & E1); injection E1 as _ <-; unfold bfsc_advance_with in E.
    destruct (bc_is_root s); [injection E as <-; exact Hs|]; destruct (bc_anc s) as [|a anc] eqn:Ea; [injection E as <-; exact Hs|].
    destruct Hs as [(X & _)|(c & Ec & Hq)]; [congruence|]; rewrite Ec in E; cbn [unwrap bindR] in E.
    refine (loop_inv body (fun s => Q (bc_queue s)) bc_inv Hbody fuel _ s1 _ E); exact Hq.
  Qed.
  Lemma bc_bound s : bc_inv s -> two_levels t (length (bc_queue s)).
  Proof.
    intros [(_ & ->)|(c & _ & Hq)]; [exists 0; cbn; lia|]; apply queued_bound in Hq; revert Hq; apply two_levels_le; rewrite app_length; lia.
  Qed.
End BfsContextSpace.

Lemma bfsc_keeps {Nd V} (gvc : Nd -> V * list Nd) nt (Hnt : node_tree gvc nt) n fuel s1 o s2 :
  bc_inv gvc (fun l => l) (fun n => [n]) (nt n) s1 -> bfsc_next gvc fuel s1 = Ok (o, s2) -> bc_inv gvc (fun l => l) (fun n => [n]) (nt n) s2.
Proof.
  pose proof (Hlevel gvc nt Hnt n) as HL; pose (live := fun n : Nd => [n]).
  intros H1 E; refine (bc_step gvc (fun l => l) live (nt n) (bfsc_body gvc) _ bfsc_get fuel s1 o s2 H1 E).
    clear -Hnt HL; intros f s Hq; unfold bfsc_body; destruct (cmaybe_pop _) as [[[[anc path] cache] stack]| | |]; cbn [bindR]; auto.
    destruct (bc_queue s) as [|[|m l] q]; [exact Logic.I| |].
    + destruct (cto_next_parent f (anc, path, cache, stack)) as [[[[anc1 path1] cache1] stack1]| | |]; cbn [bindR]; auto.
      apply (queued_pop _ live _ HL) in Hq; [|reflexivity]; destruct q; [left; split; reflexivity|exact Hq].
    + destruct (checked_succ (bc_counter s)) as [ctr| | |]; cbn [bindR]; auto; destruct (gvc m) as [v ks] eqn:Eg; right; exists ks; split; [reflexivity|].
      cbn [bc_queue]; replace ks with (snd (gvc m)) by (rewrite Eg; reflexivity); apply (queued_take _ live _ HL (m :: l)); [reflexivity|exact Hq].
Qed.
Lemma bfsc_begins {Nd V} (gvc : Nd -> V * list Nd) nt (Hnt : node_tree gvc nt) n v c path : gvc n = (v, c) ->
  bc_inv gvc (fun l => l) (fun n => [n]) (nt n) (bfsc_new v c path).
Proof.
  intros Eg; pose proof (Hlevel gvc nt Hnt n) as HL; right; exists c; split; [reflexivity|].
  cbn [bfsc_new bc_queue app]; replace c with (snd (gvc n)) by (rewrite Eg; reflexivity); apply (queued_root (fun m => snd (gvc m)) (fun n => [n]) _ HL), (level_0 gvc nt Hnt).
Qed.

Lemma bfsc_space {Nd V} (gvc : Nd -> V * list Nd) nt (Hnt : node_tree gvc nt) n k s0 s : bfs_attach_context gvc (bfs_new n) = Ok s0 ->
  after (bfsc_next gvc) k s0 s -> two_levels (nt n) (length (bc_queue s)).
Proof.
  intros E0 Ha; apply (after_inv _ _ (bfsc_keeps gvc nt Hnt n)) in Ha; [eapply bc_bound; exact Ha|].
  unfold bfs_attach_context in E0; cbn [bfs_new bfs_root] in E0; destruct (gvc n) as [v c] eqn:Eg; injection E0 as <-; apply (bfsc_begins gvc nt Hnt n v c [] Eg).
Qed.

Lemma bfsc_skip_ok {Nd} (l : list (option Nd)) : forall ctr o l' ctr', bfsc_skip l ctr = Ok (o, l', ctr') ->
  match o with Some n => flat_map opt_list l = n :: flat_map opt_list l' | None => flat_map opt_list l = [] end.
Proof.
  induction l as [|i l IH]; intros ctr o l' ctr' E; cbn [bfsc_skip] in E; [injection E as <- <- <-; reflexivity|].
  destruct i as [n|]; [injection E as <- <- <-; reflexivity|]; apply bind_ok in E as (c1 & _ & E); exact (IH _ _ _ _ E).
Qed.

Lemma bfscb_keeps {Nd V} (gvcb : Nd -> V * (option Nd * option Nd)) bt (Hbt : node_btree gvcb bt) n fuel s1 o s2 :
  bc_inv gvcb pair_iter opt_list (flat (bt n)) s1 -> bfscb_next gvcb pair_iter fuel s1 = Ok (o, s2) -> bc_inv gvcb pair_iter opt_list (flat (bt n)) s2.
Proof.
  pose (live := @opt_list Nd); pose proof (node_binary gvcb bt Hbt) as Hnt.
  assert (HL : forall d, level (S d) (flat (bt n)) = flat_map (fun m => flat_map live (pair_iter (snd (gvcb m)))) (level d (flat (bt n)))).
  { intros d; rewrite (level_S _ _ Hnt); apply flat_map_ext; intros m; unfold binary_gvc; destruct (gvcb m); reflexivity. }
  intros H1 E; refine (bc_step gvcb pair_iter live (flat (bt n)) (bfscb_body gvcb) _ bfsc_get fuel s1 o s2 H1 E).
    clear -HL; intros f s Hq; unfold bfscb_body; destruct (cmaybe_pop _) as [[[[anc path] cache] stack]| | |]; cbn [bindR]; auto.
    destruct (bc_queue s) as [|l q]; [exact Logic.I|]; destruct (bfsc_skip l (bc_counter s)) as [[[[m|] l'] ctr]| | |] eqn:Es; cbn [bindR]; auto; apply bfsc_skip_ok in Es.
    + destruct (checked_succ ctr) as [ctr1| | |]; cbn [bindR]; auto; destruct (gvcb m) as [v ks] eqn:Eg; right; exists ks; split; [reflexivity|].
      cbn [bc_queue]; replace ks with (snd (gvcb m)) by (rewrite Eg; reflexivity); apply (queued_take (fun m => pair_iter (snd (gvcb m))) live _ HL l); [exact Es|exact Hq].
    + destruct (cto_next_parent f (anc, path, cache, stack)) as [[[[anc1 path1] cache1] stack1]| | |]; cbn [bindR]; auto.
      apply (queued_pop _ live _ HL) in Hq; [|exact Es]; destruct q; [left; split; reflexivity|exact Hq].
Qed.
Lemma bfscb_begins {Nd V} (gvcb : Nd -> V * (option Nd * option Nd)) bt (Hbt : node_btree gvcb bt) n v c path : gvcb n = (v, c) ->
  bc_inv gvcb pair_iter opt_list (flat (bt n)) (bfsc_new v c path).
Proof.
  intros Eg; pose (live := @opt_list Nd); pose proof (node_binary gvcb bt Hbt) as Hnt.
  assert (HL : forall d, level (S d) (flat (bt n)) = flat_map (fun m => flat_map live (pair_iter (snd (gvcb m)))) (level d (flat (bt n)))).
  { intros d; rewrite (level_S _ _ Hnt); apply flat_map_ext; intros m; unfold binary_gvc; destruct (gvcb m); reflexivity. }
  right; exists c; split; [reflexivity|].
  cbn [bfsc_new bc_queue app]; replace c with (snd (gvcb n)) by (rewrite Eg; reflexivity); apply (queued_root (fun m => pair_iter (snd (gvcb m))) live _ HL), (level_0 _ _ Hnt).
Qed.

Lemma bfscb_space {Nd V} (gvcb : Nd -> V * (option Nd * option Nd)) bt (Hbt : node_btree gvcb bt) n k s0 s : bfs_attach_context_binary gvcb (bfs_new n) = Ok s0 ->
  after (bfscb_next gvcb pair_iter) k s0 s -> two_levels (flat (bt n)) (length (bc_queue s)).
Proof.
  intros E0 Ha; apply (after_inv _ _ (bfscb_keeps gvcb bt Hbt n)) in Ha; [eapply bc_bound; exact Ha|].
  unfold bfs_attach_context_binary in E0; cbn [bfs_new bfs_root] in E0; destruct (gvcb n) as [v c] eqn:Eg; injection E0 as <-; apply (bfscb_begins gvcb bt Hbt n v c [] Eg).
Qed.

(** ** Pipelines *)
Lemma succ_last_length v : forall w, succ_last v = Ok w -> length w = length v.
Proof.
  induction v as [|x v IH]; intros w E; cbn [succ_last] in E; [injection E as <-; reflexivity|].
  destruct v as [|y v]; [apply bind_ok in E as (z & _ & E); injection E as <-; reflexivity|].
  apply bind_ok in E as (u & E & E1); injection E1 as <-; cbn [length]; f_equal; exact (IH u E).
Qed.
Lemma succ_at_length i : forall v w, succ_at i v = Ok w -> length w = length v.
Proof.
  induction i as [|i IH]; intros [|x v] w E; cbn [succ_at] in E; try discriminate; apply bind_ok in E as (u & E & E1); injection E1 as <-; [reflexivity|].
  cbn [length]; f_equal; exact (IH v u E).
Qed.
Lemma prune_resize_length len pruned path pruned' path' : length pruned = length path -> prune_resize len pruned path = Ok (pruned', path') ->
  length pruned' = len /\ length path' = len.
Proof.
  unfold prune_resize; intros Hl E; destruct (length pruned <? len) eqn:E1; [injection E as <- <-; apply Nat.ltb_lt in E1; rewrite !app_length, !repeat_length; lia|].
  apply Nat.ltb_ge in E1; destruct (len <? length pruned) eqn:E2.
  - apply Nat.ltb_lt in E2; apply bind_ok in E as (p & E & E3); injection E3 as <- <-; apply succ_last_length in E; rewrite E, !firstn_length; lia.
  - apply Nat.ltb_ge in E2; injection E as <- <-; lia.
Qed.

Section PipeSpace.
  Variable H : nat.
  Definition small (l : list nat) : Prop := Forall (fun x => x <= H) l.
  Definition kept {A} (P : pipe A) (J : p_state P -> Prop) (m : p_state P -> list nat) : Prop :=
    J (p_init P) /\ (forall fuel s o s', J s -> p_next P fuel s = Ok (o, s') -> J s') /\ (forall s, J s -> J (p_prune P s)) /\
    (forall s, J s -> length (p_path P s) <= H) /\ (forall s, J s -> small (m s)).

  Lemma kept_map {A B G} (P : pipe A) J m (f : G -> A -> G * B) g : kept P J m -> kept (map_tree P f g) (fun s => J (fst s)) (fun s => m (fst s)).
  Proof.
    intros (K1 & K2 & K3 & K4 & K5); repeat split; cbn [map_tree p_init p_next p_prune p_path fst]; auto.
    - intros fuel s o s' Hs E; unfold map_next in E; apply bind_ok in E as ([o1 i] & E & E1); apply K2 in E; [|exact Hs].
      destruct o1 as [v|]; [destruct (f (snd s) v)|]; injection E1 as _ <-; exact E.
  Qed.

  Lemma kept_prune_depth {A} (P : pipe A) J m depth_of d : kept P J m -> kept (prune_depth P depth_of d) J m.
  Proof.
    intros (K1 & K2 & K3 & K4 & K5); repeat split; auto.
    cbn [prune_depth p_next]; intros fuel s o s' Hs E; unfold prune_depth_next in E; apply bind_ok in E as ([o1 i] & E & E1); apply K2 in E; [|exact Hs].
    destruct o1 as [v|]; [|injection E1 as _ <-; exact E]; apply bind_ok in E1 as (x & _ & E1); injection E1 as _ <-; destruct (x =? d)%N; auto.
  Qed.

  Lemma kept_prune {A G} (P : pipe A) J m (f : G -> list N -> A -> G * bool) start g : length start <= H -> kept P J m ->
    kept (prune_from P f start g) (fun s => J (pr_inner s) /\ length (pr_pruned s) = length (pr_path s) /\ length (pr_path s) <= H)
      (fun s => length (pr_pruned s) :: length (pr_path s) :: m (pr_inner s)).
  Proof.
    intros Hst (K1 & K2 & K3 & K4 & K5); split; [|split; [|split; [|split]]]; cbn [prune_from p_init p_next p_prune p_path pr_inner pr_pruned pr_path].
    - auto.
    - intros fuel s o s' Hs E.
      apply (loop_inv (prune_body P f) (fun s => J (pr_inner s) /\ length (pr_pruned s) = length (pr_path s) /\ length (pr_path s) <= H)
        (fun r => J (pr_inner (snd r)) /\ length (pr_pruned (snd r)) = length (pr_path (snd r)) /\ length (pr_path (snd r)) <= H)) in E; [exact E| |exact Hs].
      clear -K2 K3 K4; intros fl s (Hj & Hl & Hb); unfold prune_body; destruct (p_next P fl (pr_inner s)) as [[[v|] i]| | |] eqn:E; cbn [bindR]; auto;
        apply K2 in E; try exact Hj; [|cbn [snd pr_inner pr_pruned pr_path length]; split; [exact E|lia]].
      destruct (prune_resize _ _ _) as [[pruned path]| | |] eqn:Er; cbn [bindR]; auto; apply prune_resize_length in Er as (A1 & A2); [|exact Hl].
      specialize (K4 i E); destruct (f (pr_clos s) (p_path P i) v) as [g1 [|]]; [|cbn [snd pr_inner pr_pruned pr_path]; split; [exact E|lia]].
      destruct (0 <? length path); cbn [bindR].
      + destruct (succ_at _ _) as [p1| | |] eqn:Es; cbn [bindR]; auto; apply succ_at_length in Es; cbn [pr_inner pr_pruned pr_path]; split; [apply K3; exact E|lia].
      + cbn [pr_inner pr_pruned pr_path]; split; [apply K3; exact E|lia].
    - intros s (Hj & Hl & Hb); auto.
    - intros s (Hj & Hl & Hb); exact Hb.
    - intros s (Hj & Hl & Hb); constructor; [lia|constructor; [lia|apply K5; exact Hj]].
  Qed.

  Lemma kept_bprune {A G} (P : pipe A) J m (f : G -> list N -> A -> G * bool) g : kept P J m -> kept (bprune P f g) (fun s => J (fst s)) (fun s => m (fst s)).
  Proof.
    intros (K1 & K2 & K3 & K4 & K5); repeat split; cbn [bprune p_init p_next p_prune p_path fst]; auto.
    intros fuel s o s' Hs E; apply (loop_inv (bprune_body P f) (fun s => J (fst s)) (fun r => J (fst (snd r)))) in E; [exact E| |exact Hs].
    clear -K2 K3; intros fl s Hj; unfold bprune_body; destruct (p_next P fl (fst s)) as [[[v|] i]| | |] eqn:E; cbn [bindR]; auto; apply K2 in E; try exact Hj; [|exact E].
    destruct (f (snd s) (p_path P i) v) as [g1 [|]]; cbn [fst snd]; auto.
  Qed.

  Lemma kept_chain {V} (P : pipe V) J m depth_of start : length start <= H -> kept P J m ->
    forall A (c : chain V A), exists Jc, kept (run_chain depth_of start P c) Jc (held depth_of start P m c).
  Proof.
    intros Hst HP A c; induction c as [|A B G c (Jc & IH) g f|A G c (Jc & IH) g f|A G c (Jc & IH) g f|A c (Jc & IH) d]; cbn [run_chain held].
    - exists J; exact HP.
    - eexists; apply kept_map; exact IH.
    - eexists; apply kept_prune; [cbn; lia|exact IH].
    - eexists; apply kept_prune; [exact Hst|exact IH].
    - eexists; apply kept_prune_depth; exact IH.
  Qed.
  Lemma kept_chain_binary {V} (P : pipe V) J m depth_of : kept P J m ->
    forall A (c : chain V A), exists Jc, kept (run_chain_binary depth_of P c) Jc (held_binary depth_of P m c).
  Proof.
    intros HP A c; induction c as [|A B G c (Jc & IH) g f|A G c (Jc & IH) g f|A G c (Jc & IH) g f|A c (Jc & IH) d]; cbn [run_chain_binary held_binary].
    - exists J; exact HP.
    - eexists; apply kept_map; exact IH.
    - eexists; apply kept_bprune; exact IH.
    - eexists; apply kept_bprune; exact IH.
    - eexists; apply kept_prune_depth; exact IH.
  Qed.
  Lemma kept_small {A} (P : pipe A) J m : kept P J m -> forall k s, after (p_next P) k (p_init P) s -> small (m s).
  Proof. intros (K1 & K2 & _ & _ & K5) k s Ha; apply K5; exact (after_inv _ J K2 k _ s K1 Ha). Qed.
End PipeSpace.

Section StartSpace.
  Context {Nd V I C : Type} (gv : Nd -> V * C) (into_iter : C -> list I) (hN : Nd -> nat) (hI : I -> nat) (n0 : Nd) (b : nat).
  Hypothesis Hpos : forall n, 1 <= hN n.
  Hypothesis Hkids : forall n v c, gv n = (v, c) -> Forall (fun i => hI i < hN n) (into_iter c).
  Notation H := (hN n0).
  Notation fits := (fits hI H).
  Variable body : nat -> list (list I) * list N -> Res (list (list I) * list N + option Nd * (list (list I) * list N)).
  Hypothesis Hbody : forall f stack path,
    match body f (stack, path) with
    | Ok (inl (stack', path')) => exists l, stack = l :: stack' /\ length path' = pred (length path)
    | Ok (inr (None, (stack', path'))) => stack' = stack /\ path' = path
    | Ok (inr (Some n, (stack', path'))) => length path' = length path /\
        exists l l' rest, stack = l :: rest /\ stack' = l' :: rest /\ incl l' l /\ exists i, In i l /\ hN n = hI i
    | _ => True
    end.
  Definition pt_inv (s : ptrack Nd I C) : Prop :=
    match pt_root s with
    | Some n => n = n0 /\ pt_stack s = [] /\ length (pt_path s) <= b
    | None => length (pt_path s) <= b + length (pt_stack s) /\ fits (pt_stack s) /\
        match pt_deck s with Some c => exists n v, gv n = (v, c) /\ length (pt_stack s) + hN n <= H | None => True end
    end.
  Lemma pt_step fuel s o s' : pt_inv s -> pt_next_with gv into_iter body fuel s = Ok (o, s') -> pt_inv s'.
  Proof.
    intros Hs E; unfold pt_next_with in E; unfold pt_inv in Hs; destruct (pt_root s) as [n|].
    - destruct Hs as (-> & Es & Ep); rewrite Es in E; destruct (gv n0) as [v c] eqn:Eg; injection E as _ <-.
      unfold pt_inv; cbn [pt_root pt_stack pt_path pt_deck]; split; [cbn [length]; lia|]; split; [exact Logic.I|]; exists n0, v; split; [exact Eg|cbn; lia].
    - destruct Hs as (Hp & Hf & Hd).
      remember (match pt_deck s with Some children => (into_iter children :: pt_stack s, usize_max :: pt_path s) | None => (pt_stack s, pt_path s) end) as sp eqn:Esp.
      assert (Hsp : length (snd sp) <= b + length (fst sp) /\ fits (fst sp)).
      { subst sp; destruct (pt_deck s) as [c|]; cbn [fst snd length]; [|auto]; destruct Hd as (m & v & Eg & Hm); split; [lia|].
        eapply (push_into gv into_iter hN hI n0 Hpos Hkids); eassumption. }
      destruct sp as [stack path]; cbn [fst snd] in Hsp; destruct Hsp as (Hp1 & Hf1); apply bind_ok in E as ([next [stack1 path1]] & E & E1).
      apply (loop_inv body (fun s => length (snd s) <= b + length (fst s) /\ fits (fst s))
        (fun r => let '(o, (stack, path)) := r in length path <= b + length stack /\ fits stack /\ match o with Some n => length stack + hN n <= H | None => True end)) in E;
        [| |cbn [fst snd]; auto].
      + destruct E as (A & B & D), next as [m|]; [destruct (gv m) as [v c] eqn:Eg|]; injection E1 as _ <-; unfold pt_inv; cbn [pt_root pt_stack pt_path pt_deck]; split; auto; split; auto.
        exists m, v; auto.
      + clear -Hbody; intros f [st pa] (Hp & Hf); cbn [fst snd] in *; specialize (Hbody f st pa); destruct (body f (st, pa)) as [[[st1 pa1]|[[m|] [st1 pa1]]]| | |]; auto.
        * destruct Hbody as (l & -> & Hp1); cbn [fst snd length] in *; split; [lia|apply Hf].
        * destruct Hbody as (Hp1 & l & l' & rest & -> & -> & Hi & i & Hin & Ei); cbn [length] in *; split; [lia|].
          split; [eapply (take_item hN hI n0); eassumption|rewrite Ei; exact (item_height hN hI n0 l rest i Hin Hf)].
        * destruct Hbody as (-> & ->); auto.
  Qed.
  Lemma pt_bounds s : pt_inv s -> length (pt_path s) <= b + H /\ length (pt_stack s) <= b + H.
  Proof.
    intros Hs; unfold pt_inv in Hs; destruct (pt_root s); [destruct Hs as (_ & -> & A); cbn; lia|]; destruct Hs as (A & B & _); apply fits_length in B; lia.
  Qed.
  Lemma pt_pruned s : pt_inv s -> pt_inv (pt_prune s).
  Proof. intros Hs; unfold pt_inv, pt_prune in *; cbn [pt_root pt_stack pt_path pt_deck]; destruct (pt_root s); [exact Hs|tauto]. Qed.
  Lemma pt_start path : length path <= b -> pt_inv (pt_new n0 path).
  Proof. intros Hp; split; [reflexivity|]; split; [reflexivity|cbn; rewrite rev_length; exact Hp]. Qed.
  Lemma pt_kept path_of : (forall s, path_of s = rev (pt_path s)) ->
    kept (b + H) (mkPipe (ptrack Nd I C) (pt_new n0 []) (pt_next_with gv into_iter body) path_of pt_prune) pt_inv start_held.
  Proof.
    intros Hpath; split; [|split; [|split; [|split]]]; cbn [p_init p_next p_prune p_path p_state].
    - apply pt_start; cbn; lia.
    - exact pt_step.
    - exact pt_pruned.
    - intros s Hs; rewrite Hpath, rev_length; apply pt_bounds; exact Hs.
    - intros s Hs; destruct (pt_bounds s Hs); constructor; [assumption|constructor; [assumption|constructor]].
  Qed.
End StartSpace.

Definition pt_body_does {Nd V I C} (gv : Nd -> V * C) (hN : Nd -> nat) (hI : I -> nat)
    (body : nat -> list (list I) * list N -> Res (list (list I) * list N + option Nd * (list (list I) * list N))) : Prop :=
  forall f stack path,
    match body f (stack, path) with
    | Ok (inl (stack', path')) => exists l, stack = l :: stack' /\ length path' = pred (length path)
    | Ok (inr (None, (stack', path'))) => stack' = stack /\ path' = path
    | Ok (inr (Some n, (stack', path'))) => length path' = length path /\
        exists l l' rest, stack = l :: rest /\ stack' = l' :: rest /\ incl l' l /\ exists i, In i l /\ hN n = hI i
    | _ => True
    end.
Lemma pt_body_facts {Nd V} (gvc : Nd -> V * list Nd) (h : Nd -> nat) : pt_body_does gvc h h pt_body.
Proof.
  intros f st pa; unfold pt_body; destruct st as [|[|m top] rest]; [auto| |].
  - exists []; split; [reflexivity|destruct pa; reflexivity].
  - destruct (incr_last pa) as [p1| | |] eqn:E; cbn [bindR]; auto; apply incr_last_length in E.
    split; [exact E|]; exists (m :: top), top, rest; repeat split; [apply incl_tl, incl_refl|]; exists m; split; [left|]; reflexivity.
Qed.
Lemma ptb_body_facts {Nd V} (gvcb : Nd -> V * (option Nd * option Nd)) (bt : Nd -> btree Nd) :
  pt_body_does gvcb (fun n => height (flat (bt n))) (oheight bt) ptb_body.
Proof.
  intros f st pa; unfold ptb_body; destruct st as [|top rest]; [auto|].
  destruct (prec_scan top pa) as [[[[m|] top'] p1]| | |] eqn:E; cbn [bindR]; auto; apply prec_scan_ok in E as (E & Hi).
  - split; [exact E|]; exists top, top', rest; repeat split; [apply Hi|]; exists (Some m); split; [apply Hi|reflexivity].
  - exists top; split; [reflexivity|]; rewrite <- E; destruct p1; reflexivity.
Qed.
Lemma sides_kids {Nd V} (gvcb : Nd -> V * (option Nd * option Nd)) bt (Hbt : node_btree gvcb bt) n v c :
  gvcb n = (v, c) -> Forall (fun i => oheight bt i < height (flat (bt n))) (pair_iter c).
Proof. destruct c as [l r]; intros E; destruct (sides_lower gvcb bt Hbt n v l r E); repeat constructor; assumption. Qed.

Lemma pipeline_kept {Nd V} (gvc : Nd -> V * list Nd) nt (Hnt : node_tree gvc nt) n : exists J, kept (height (nt n)) (into_pipeline gvc n) J start_held.
Proof.
  eexists; exact (pt_kept gvc (fun l => l) (fun n => height (nt n)) (fun n => height (nt n)) n 0 (fun n => height_pos (nt n)) (kids_lower gvc nt Hnt) pt_body (pt_body_facts gvc _) pt_current_path (fun _ => eq_refl)).
Qed.

Lemma bpipeline_kept {Nd V} (gvcb : Nd -> V * (option Nd * option Nd)) bt (Hbt : node_btree gvcb bt) n :
  exists J, kept (height (flat (bt n))) (into_pipeline_binary gvcb n) J start_held.
Proof.
  eexists; exact (pt_kept gvcb pair_iter (fun n => height (flat (bt n))) (oheight bt) n 0 (fun n => height_pos (flat (bt n))) (sides_kids gvcb bt Hbt) ptb_body (ptb_body_facts gvcb bt) pt_current_path (fun _ => eq_refl)).
Qed.

Lemma chain_space {Nd V A} (gvc : Nd -> V * list Nd) nt (Hnt : node_tree gvc nt) n (c : chain V A) k s :
  after (p_next (tree_chain (into_pipeline gvc n) c)) k (p_init (tree_chain (into_pipeline gvc n) c)) s ->
  Forall (fun x => x <= height (nt n)) (held tree_depth [] (into_pipeline gvc n) start_held c s).
Proof.
  destruct (pipeline_kept gvc nt Hnt n) as (J & HJ); destruct (kept_chain _ _ J _ tree_depth [] (Nat.le_0_l _) HJ A c) as (Jc & Hc).
  exact (kept_small _ _ Jc _ Hc k s).
Qed.
Lemma bchain_space {Nd V A} (gvcb : Nd -> V * (option Nd * option Nd)) bt (Hbt : node_btree gvcb bt) n (c : chain V A) k s :
  after (p_next (btree_chain (into_pipeline_binary gvcb n) c)) k (p_init (btree_chain (into_pipeline_binary gvcb n) c)) s ->
  Forall (fun x => x <= height (flat (bt n))) (held_binary tree_depth (into_pipeline_binary gvcb n) start_held c s).
Proof.
  destruct (bpipeline_kept gvcb bt Hbt n) as (J & HJ); destruct (kept_chain_binary _ _ J _ tree_depth HJ A c) as (Jc & Hc).
  exact (kept_small _ _ Jc _ Hc k s).
Qed.
