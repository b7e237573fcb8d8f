(** * [leaves()] of a depth-first iterator that has already been used: exactly what it yields. *)
From Coq Require Import Permutation.
From Verif Require Import Prelim PrelimFacts Spec SpecFacts ModelNode NodeFacts Slots.
From Verif Require Import ModelPre ModelPost ModelIn ModelLeaves ProofsPlain ProofsPre ProofsTree ProofsBfs ProofsMore ProofsLeaves.

Lemma loop_pres {S R} (body : nat -> S -> Res (S + R)) (J : S -> Prop) (K : R -> Prop) :
  (forall f s x, J s -> body f s = Ok x -> match x with inl s' => J s' | inr r => K r end) ->
  forall f s r, J s -> loop body f s = Ok r -> K r.
Proof.
  intros H f; induction f as [|f IH]; intros s r Hs E; cbn in E; [discriminate|].
  destruct (body f s) as [[s'|r']| | |] eqn:Eb; try discriminate; specialize (H _ _ _ Hs Eb); cbn in H.
  - exact (IH _ _ H E).
  - injection E as <-; exact H.
Qed.

(** A fact [U x s] about the state after yielding [x]. *)
Section Ghost.
  Context {S A : Type} (next : nat -> S -> Res (option A * S)) (R : S -> list A -> Prop) (U : A -> S -> Prop).
  Hypothesis HR : step_inv next R.
  Hypothesis HU : forall f y s o s', U y s -> next f s = Ok (o, s') -> match o with Some x => U x s' | None => U y s' end.

  Lemma conv_some {B} (m : nat -> Res B) r : m ⇓ r -> exists f, m f = r.
  Proof. intros [F HF]; exists F; auto. Qed.

  Lemma ghost_run k : forall y s ns s', U y s -> R s ns -> after next k s s' ->
    exists x, (x = y \/ In x (firstn k ns)) /\ U x s'.
  Proof.
    induction k as [|k IH]; intros y s ns s' Hy Hs Ha.
    - rewrite <- (after_fun _ _ _ _ _ (after_0 _ _) Ha); eauto.
    - destruct (HR s ns Hs) as (s1 & Hn & H1).
      destruct Ha as [os Hc].
      destruct (calls_S_inv _ _ _ _ _ Hc) as (o & s1' & os' & Hn' & Hc' & _); [eauto|].
      pose proof (conv_fun _ _ _ Hn Hn') as E; injection E as <- <-.
      destruct (conv_some _ _ Hn) as [f Hf]; pose proof (HU _ _ _ _ _ Hy Hf) as Hy1.
      destruct ns as [|n ns]; cbn in Hy1, H1.
      + destruct (IH y s1 [] s' Hy1 H1) as (x & Hx & HUx); [eexists; exact Hc'|].
        exists x; split; [|exact HUx]; rewrite firstn_nil in Hx; destruct Hx as [->|[]]; auto.
      + destruct (IH n s1 ns s' Hy1 H1) as (x & Hx & HUx); [eexists; exact Hc'|].
        exists x; split; [|exact HUx]; cbn; destruct Hx; auto.
  Qed.

  Lemma ghost_after k s n ns s' :
    (forall f o s1, next f s = Ok (o, s1) -> match o with Some x => U x s1 | None => True end) ->
    R s (n :: ns) -> after next (Datatypes.S k) s s' ->
    exists x, In x (firstn (Datatypes.S k) (n :: ns)) /\ U x s'.
  Proof.
    intros H0 Hs [os Hc].
    destruct (HR _ _ Hs) as (s1 & Hn & H1).
    destruct (calls_S_inv _ _ _ _ _ Hc) as (o & s1' & os' & Hn' & Hc' & _); [eauto|].
    pose proof (conv_fun _ _ _ Hn Hn') as E; injection E as <- <-.
    destruct (conv_some _ _ Hn) as [f Hf]; pose proof (H0 _ _ _ Hf) as Hy1; cbn in Hy1, H1.
    destruct (ghost_run k n s1 ns s' Hy1 H1) as (x & Hx & HUx); [eexists; exact Hc'|].
    exists x; split; [|exact HUx]; cbn; destruct Hx; auto.
  Qed.
End Ghost.

(** ** Where the stacks of the iterators come from *)
Section Abs.
  Context {Q : Type} (kids : Q -> list Q) (tq : Q -> tree Q).
  Definition gI (q : Q) : Q * list Q := (q, kids q).
  Hypothesis Hq : node_tree gI tq.
  Definition sub (q : Q) : list Q := preorder (tq q).
  Local Notation strict q := (flat_map sub (kids q)).

  Lemma sub_unfold q : sub q = q :: strict q.
  Proof. unfold sub; rewrite (Hq q); cbn [preorder gI snd]; rewrite flat_map_map; reflexivity. Qed.
  Lemma sub_self q : In q (sub q).
  Proof. rewrite sub_unfold; left; reflexivity. Qed.
  Lemma strict_sub q x : In x (strict q) -> In x (sub q).
  Proof. rewrite sub_unfold; right; assumption. Qed.
  Lemma kid_strict q c : In c (kids q) -> In c (strict q).
  Proof. intros H; apply in_flat_map; exists c; split; [exact H|apply sub_self]. Qed.
  Lemma sub_trans : forall q x y, In x (sub q) -> In y (sub x) -> In y (sub q).
  Proof.
    refine (node_ind gI tq Hq _ _); intros q IH x y Hx Hy; change (nkids gI q) with (kids q) in IH.
    rewrite sub_unfold in Hx; destruct Hx as [<-|Hx]; [exact Hy|].
    apply in_flat_map in Hx as (c & Hc & Hx); apply strict_sub, in_flat_map; exists c; split; [exact Hc|].
    rewrite Forall_forall in IH; eapply IH; eauto.
  Qed.
  Lemma strict_trans q x y : In x (strict q) -> In y (sub x) -> In y (strict q).
  Proof.
    intros Hx Hy; apply in_flat_map in Hx as (c & Hc & Hx); apply in_flat_map; exists c; split; [exact Hc|].
    eapply sub_trans; eauto.
  Qed.

  Definition leafb (q : Q) : bool := is_leaf gI q.
  Lemma strict_leaf q x : In x (strict q) -> leafb q = false.
  Proof. unfold leafb, is_leaf, nkids; cbn; destruct (kids q); [intros []|reflexivity]. Qed.
  Lemma leafb_strict q : leafb q = true -> strict q = [].
  Proof. unfold leafb, is_leaf, nkids; cbn; destruct (kids q); [reflexivity|discriminate]. Qed.

  Lemma filter_flat_map {A B} (f : A -> list B) h l : filter h (flat_map f l) = flat_map (fun x => filter h (f x)) l.
  Proof. induction l as [|x l IH]; cbn; [reflexivity|rewrite filter_app, IH; reflexivity]. Qed.

  Lemma post_leaves_same : forall q, filter leafb (postorder (tq q)) = filter leafb (sub q).
  Proof.
    refine (node_ind gI tq Hq _ _); intros q IH; change (nkids gI q) with (kids q) in IH.
    rewrite sub_unfold, (Hq q); cbn [postorder gI snd]; rewrite filter_app, flat_map_map; cbn [filter].
    destruct (leafb q) eqn:El.
    - rewrite (leafb_strict q El); unfold leafb, is_leaf, nkids in El; cbn in El; destruct (kids q); [reflexivity|discriminate].
    - rewrite app_nil_r, !filter_flat_map; apply flat_map_ext_Forall; exact IH.
  Qed.

  (** Each list of the stack consists of children of a node at or above [x]. *)
  Fixpoint under (x : Q) (B : list (list Q)) : Prop :=
    match B with
    | [] => True
    | l :: B' => exists m, In x (sub m) /\ incl l (kids m) /\ under m B'
    end.
  Lemma under_mono B : forall x y, In y (sub x) -> under x B -> under y B.
  Proof. destruct B; cbn; [auto|]; intros x y Hy (m & Hm & H); exists m; split; [eapply sub_trans; eauto|exact H]. Qed.

  Definition pre_U (x : Q) (s : pre_iter Q) : Prop := pre_root s = None /\ under x (pre_stack s).

  Lemma pre_loop_U f x stack o stack' : under x stack -> loop pre_next_body f stack = Ok (o, stack') ->
    match o with Some n => under n stack' | None => under x stack' end.
  Proof.
    intros Hx E.
    refine (loop_pres pre_next_body (under x) (fun r => match fst r with Some n => under n (snd r) | None => under x (snd r) end) _ f stack _ Hx E).
    clear - Hq; intros f [|[|n top] rest] r H E; cbn in E; injection E as <-; cbn [fst snd].
    - exact H.
    - destruct H as (m & Hm & _ & H); eapply under_mono; eauto.
    - destruct H as (m & Hm & Hi & H); exists m; split; [|split; [|exact H]].
      + apply strict_sub, kid_strict, Hi; left; reflexivity.
      + intros c Hc; apply Hi; right; exact Hc.
  Qed.

  Lemma pre_U_step f y s o s' : pre_U y s -> pre_next gI f s = Ok (o, s') -> match o with Some x => pre_U x s' | None => pre_U y s' end.
  Proof.
    destruct s as [r stack]; intros [Hr H] E; cbn in Hr, H; subst r; unfold pre_next in E; cbn in E.
    destruct (loop pre_next_body f stack) as [[[n|] st]| | |] eqn:El; cbn in E; try discriminate; injection E as <- <-.
    - pose proof (pre_loop_U f y stack _ _ H El) as Hn; cbn in Hn.
      split; [reflexivity|]; exists n; split; [apply sub_self|split; [apply incl_refl|exact Hn]].
    - pose proof (pre_loop_U f y stack _ _ H El) as Hn; cbn in Hn; split; [reflexivity|exact Hn].
  Qed.
  Lemma pre_U_first f n o s' : pre_next gI f (pre_new n) = Ok (o, s') -> match o with Some x => pre_U x s' | None => True end.
  Proof.
    unfold pre_next; cbn; intros E; injection E as <- <-; split; [reflexivity|].
    exists n; split; [apply sub_self|split; [apply incl_refl|exact I]].
  Qed.

  Lemma under_parent B : forall x b, under x B -> In b (concat B) -> exists m, In b (kids m) /\ In x (sub m).
  Proof.
    induction B as [|l B IH]; intros x b H Hb; cbn in Hb; [destruct Hb|].
    destruct H as (m & Hm & Hi & H); apply in_app_iff in Hb as [Hb|Hb]; [exists m; auto|].
    destruct (IH m b H Hb) as (m' & H1 & H2); exists m'; split; [exact H1|eapply sub_trans; eauto].
  Qed.

  (** The same with the nodes kept in [items], all strictly above [x]. *)
  Fixpoint chain (x : Q) (items : list Q) (B : list (list Q)) : Prop :=
    match items, B with
    | [], [] => True
    | m :: items', l :: B' => In x (strict m) /\ incl l (kids m) /\ chain m items' B'
    | _, _ => False
    end.
  Lemma chain_mono items B x y : In y (sub x) -> chain x items B -> chain y items B.
  Proof. destruct items, B; cbn; auto; intros Hy (Hm & H); split; [eapply strict_trans; eauto|exact H]. Qed.
  Lemma chain_under items : forall B x, chain x items B -> under x B.
  Proof.
    induction items as [|m items IH]; intros [|l B] x; cbn; try tauto.
    intros (H1 & H2 & H3); exists m; split; [apply strict_sub, H1|split; [exact H2|apply IH, H3]].
  Qed.
  Lemma chain_length items : forall B x, chain x items B -> length items = length B.
  Proof. induction items as [|m items IH]; intros [|l B] x; cbn; try tauto; intros (_ & _ & H); f_equal; eauto. Qed.
  Lemma chain_nonleaf items : forall B x m, chain x items B -> In m items -> leafb m = false.
  Proof.
    induction items as [|m items IH]; intros [|l B] x m' H Hm; cbn in *; try tauto.
    destruct H as (H1 & _ & H3); destruct Hm as [->|Hm]; [eapply strict_leaf; eauto|eauto].
  Qed.

  Definition post_U (x : Q) (s : post_iter Q Q) : Prop := po_root s = None /\ chain x (po_items s) (po_stack s).
  Definition post_J (s : post_iter Q Q) : Prop :=
    match po_root s with
    | Some _ => po_items s = [] /\ po_stack s = []
    | None => match po_items s, po_stack s with
              | [], [] => True
              | m :: items, l :: B => incl l (kids m) /\ chain m items B
              | _, _ => False
              end
    end.

  Lemma post_loop_U f s o s' : post_J s -> post_next gI f s = Ok (o, s') ->
    match o with Some x => post_U x s' | None => s' = mkPost None [] [] end.
  Proof.
    intros Hs E; unfold post_next in E.
    refine (loop_pres _ post_J (fun r => match fst r with Some x => post_U x (snd r) | None => snd r = mkPost None [] [] end) _ f s _ Hs E).
    clear E Hs; intros f0 [[n|] items stack] r H E; unfold post_J in H; cbn in H, E.
    - destruct H as [-> ->]; injection E as <-; cbn; split; [apply incl_refl|exact I].
    - destruct items as [|m items], stack as [|[|c top] rest]; cbn in H, E; try tauto; injection E as <-; cbn [fst snd].
      + reflexivity.
      + destruct H as [_ H]; split; [reflexivity|exact H].
      + destruct H as [Hi H]; unfold post_J; cbn; split; [apply incl_refl|].
        split; [apply kid_strict, Hi; left; reflexivity|split; [|exact H]].
        intros d Hd; apply Hi; right; exact Hd.
  Qed.
  Lemma post_U_J x s : post_U x s -> post_J s.
  Proof.
    intros [Hr H]; unfold post_J; rewrite Hr; destruct (po_items s), (po_stack s); cbn in *; try tauto.
  Qed.
  Lemma post_U_step f y s o s' : post_U y s -> post_next gI f s = Ok (o, s') -> match o with Some x => post_U x s' | None => post_U y s' end.
  Proof.
    intros H E; pose proof (post_loop_U f s o s' (post_U_J y s H) E) as HH; destruct o; [exact HH|].
    subst s'; split; [reflexivity|exact I].
  Qed.
  Lemma post_U_first f n o s' : post_next gI f (post_new n) = Ok (o, s') -> match o with Some x => post_U x s' | None => True end.
  Proof.
    intros E; pose proof (post_loop_U f (post_new n) o s' ltac:(split; reflexivity) E) as HH; destruct o; [exact HH|exact I].
  Qed.

  (** ** Inorder *)
  Context (lq rq : Q -> option Q).
  Hypothesis Hkids : forall q, kids q = opt_list (lq q) ++ opt_list (rq q).
  Definition gIb (q : Q) : Q * (option Q * option Q) := (q, (lq q, rq q)).

  Lemma lq_kid q c : lq q = Some c -> In c (kids q).
  Proof. intros E; rewrite Hkids, E; left; reflexivity. Qed.
  Lemma rq_kids q : incl (opt_list (rq q)) (kids q).
  Proof. intros c Hc; rewrite Hkids; apply in_app_iff; right; exact Hc. Qed.

  Definition in_U (x : Q) (s : in_iter Q Q) : Prop :=
    in_moved s = true /\
    match in_right s with
    | [] => in_items s = []
    | o :: rs => incl (opt_list o) (kids x) /\ chain x (in_items s) (map opt_list rs)
    end.

  Definition in_J (st : option Q * list (option Q) * list Q) : Prop :=
    let '(cur, rights, items) := st in
    match cur with
    | Some n => chain n items (map opt_list rights)
    | None => match items, rights with
              | m :: items', o :: rs => incl (opt_list o) (kids m) /\ chain m items' (map opt_list rs)
              | _, _ => False
              end
    end.

  Lemma in_descend_U f n rights items rights' items' : chain n items (map opt_list rights) ->
    loop (in_descend_body gIb) f (Some n, rights, items) = Ok (rights', items') ->
    exists m i o rs, items' = m :: i /\ rights' = o :: rs /\ incl (opt_list o) (kids m) /\ chain m i (map opt_list rs).
  Proof.
    intros H E.
    refine (loop_pres _ in_J (fun r => exists m i o rs, snd r = m :: i /\ fst r = o :: rs /\ incl (opt_list o) (kids m) /\ chain m i (map opt_list rs)) _ f (Some n, rights, items) (rights', items') H E).
    clear - Hq Hkids; intros f [[[n|] rights] items] r H E; cbn in H, E; injection E as <-; cbn.
    - destruct (lq n) as [c|] eqn:El.
      + cbn; split; [apply kid_strict, lq_kid, El|split; [apply rq_kids|exact H]].
      + split; [apply rq_kids|exact H].
    - destruct items as [|m i], rights as [|o rs]; try tauto; exists m, i, o, rs; tauto.
  Qed.

  Lemma in_find_none (rs : list (option Q)) (items : list Q) f r : length rs = length items ->
    loop in_find_body f (rs, items) = Ok r -> r = inl (hd_error items, tl items, rs).
  Proof.
    intros H E; destruct f as [|f]; [discriminate|]; cbn in E; rewrite H, Nat.eqb_refl in E; congruence.
  Qed.

  Lemma in_loop_U f n rs items b o s' : chain n items (map opt_list rs) ->
    in_next gIb f (mkIn (Some n :: rs) items b) = Ok (o, s') -> exists x, o = Some x /\ in_U x s'.
  Proof.
    intros H E; unfold in_next in E; cbn [in_right in_items] in E.
    pose proof (chain_length _ _ _ H) as Hlen; rewrite map_length in Hlen.
    destruct f as [|f]; [discriminate|].
    assert (E1 : loop in_find_body (S f) (Some n :: rs, items) = Ok (inr (Some n, rs))).
    { cbn [loop in_find_body].
      assert (Hne : (length (Some n :: rs) =? length items) = false) by (apply Nat.eqb_neq; cbn; lia).
      unfold in_find_body; rewrite Hne; destruct rs; reflexivity. }
    rewrite E1 in E; cbn [bindR] in E.
    destruct (loop (in_descend_body gIb) (S f) (Some n, rs, items)) as [[r1 i1]| | |] eqn:E2; cbn [bindR] in E; try discriminate.
    injection E as <- <-; destruct (in_descend_U _ _ _ _ _ _ H E2) as (m & i & o' & rs' & -> & -> & H1 & H2).
    exists m; split; [reflexivity|]; split; [reflexivity|]; cbn; auto.
  Qed.

  Lemma in_U_step f y s o s' : in_U y s -> in_next gIb f s = Ok (o, s') -> match o with Some x => in_U x s' | None => in_U y s' end.
  Proof.
    destruct s as [rights items b]; intros [Hb H] E; cbn in Hb, H; subst b.
    destruct rights as [|[n|] rs].
    - subst items; unfold in_next in E; cbn [in_right in_items] in E.
      destruct (loop in_find_body f ([], [])) as [r| | |] eqn:E1; cbn [bindR] in E; try discriminate.
      pose proof (in_find_none [] [] f r eq_refl E1) as ->; injection E as <- <-; split; reflexivity.
    - destruct H as [Hi H].
      assert (Hn : chain n items (map opt_list rs)).
      { eapply chain_mono; [|exact H]; apply strict_sub, kid_strict, Hi; left; reflexivity. }
      destruct (in_loop_U f n rs items true o s' Hn E) as (x & -> & HU); exact HU.
    - destruct H as [_ H]; pose proof (chain_length _ _ _ H) as Hlen; rewrite map_length in Hlen.
      unfold in_next in E; cbn [in_right in_items] in E.
      destruct f as [|f]; [discriminate|].
      cbn [loop] in E; unfold in_find_body at 1 in E.
      assert (Hne : (length (None :: rs) =? length items) = false) by (apply Nat.eqb_neq; cbn; lia).
      rewrite Hne in E; destruct rs as [|o1 rs].
      + destruct items; [|discriminate]; cbn in E; injection E as <- <-; split; reflexivity.
      + destruct (loop in_find_body f (o1 :: rs, items)) as [r| | |] eqn:E1; cbn [bindR] in E; try discriminate.
        pose proof (in_find_none _ _ _ _ (eq_sym Hlen) E1) as ->; injection E as <- <-.
        destruct items as [|m items]; [discriminate|]; cbn in H |- *.
        destruct H as (_ & H1 & H2); split; [reflexivity|]; cbn; auto.
  Qed.
  Lemma in_U_first f n o s' : in_next gIb f (in_new n) = Ok (o, s') -> match o with Some x => in_U x s' | None => True end.
  Proof.
    intros E; destruct (in_loop_U f n [] [] false o s' Logic.I E) as (x & -> & H); exact H.
  Qed.
End Abs.

Lemma prefixb_spec p : forall q, prefixb p q = true <-> exists s, q = p ++ s.
Proof.
  induction p as [|i p IH]; intros q; cbn; [split; [exists q; reflexivity|reflexivity]|].
  destruct q as [|j q]; [split; [discriminate|intros [s E]; discriminate]|].
  rewrite andb_true_iff, Nat.eqb_eq, IH; split.
  - intros [-> [s ->]]; exists s; reflexivity.
  - intros [s E]; injection E as -> ->; split; [reflexivity|exists s; reflexivity].
Qed.

Lemma nodup_app {A} (l l' : list A) : NoDup l -> NoDup l' -> (forall x, In x l -> In x l' -> False) -> NoDup (l ++ l').
Proof.
  intros H H' D; induction H as [|x l Hx H IH]; cbn; [exact H'|]; constructor.
  - rewrite in_app_iff; intros [Hi|Hi]; [auto|exact (D x (or_introl eq_refl) Hi)].
  - apply IH; intros y Hy; apply D; right; exact Hy.
Qed.

Lemma nodup_app_disj {A} (l l' : list A) x : NoDup (l ++ l') -> In x l -> In x l' -> False.
Proof.
  intros H Hx Hx'; induction l as [|y l IH]; [destruct Hx|]; cbn in H; inversion H as [|? ? Hy Hr]; subst.
  destruct Hx as [->|Hx]; [apply Hy, in_app_iff; right; exact Hx'|exact (IH Hr Hx)].
Qed.

(** ** Positions: paths identify nodes *)
Section Pos.
  Context {Nd V C : Type} (gv : Nd -> V * C) (into_iter : C -> list (option Nd)).
  Local Notation slots := (fun n => into_iter (nkids gv n)).
  Context (T : list nat -> list Nd -> Nd -> tree (pos Nd)).
  Hypothesis HT : slot_law slots T.
  Local Notation kids := (pkids gv into_iter).
  Local Notation tq := (ptree T).
  Local Notation sub := (sub (ptree T)).
  Local Notation strict q := (flat_map sub (kids q)).
  Local Notation leafb := (leafb (pkids gv into_iter)).

  Lemma Hq : node_tree (gI kids) tq.
  Proof. exact (pnode gv into_iter T HT). Qed.

  Lemma pk_idx p ab (l : list (option Nd)) x : forall j, In x (pk p ab j l) ->
    exists i c, j <= i /\ x = mkPos (p ++ [i]) ab c /\ nth_error l (i - j) = Some (Some c).
  Proof.
    induction l as [|o l IH]; intros j H; cbn in H; [destruct H|].
    assert (Hr : In x (pk p ab (S j) l) -> exists i c, j <= i /\ x = mkPos (p ++ [i]) ab c /\ nth_error (o :: l) (i - j) = Some (Some c)).
    { intros H'; destruct (IH _ H') as (i & c & Hi & -> & E); exists i, c; split; [lia|split; [reflexivity|]].
      replace (i - j) with (S (i - S j)) by lia; exact E. }
    destruct o as [c|]; [|auto].
    destruct H as [<-|H]; [|auto]; exists j, c; split; [lia|split; [reflexivity|]].
    rewrite Nat.sub_diag; reflexivity.
  Qed.

  Lemma kid_path q c : In c (kids q) -> exists i, pos_path c = pos_path q ++ [i].
  Proof. intros H; destruct (pk_idx _ _ _ _ _ H) as (i & n & _ & -> & _); exists i; reflexivity. Qed.
  Lemma kid_inj q c c' i : In c (kids q) -> In c' (kids q) -> pos_path c = pos_path q ++ [i] -> pos_path c' = pos_path q ++ [i] -> c = c'.
  Proof.
    intros H H'; destruct (pk_idx _ _ _ _ _ H) as (j & n & _ & -> & E), (pk_idx _ _ _ _ _ H') as (j' & n' & _ & -> & E'); cbn.
    intros E1 E2; apply app_inv_head in E1, E2; injection E1 as ->; injection E2 as ->; rewrite E in E'; injection E' as ->; reflexivity.
  Qed.

  Lemma sub_path : forall q x, In x (sub q) -> exists suf, pos_path x = pos_path q ++ suf.
  Proof.
    refine (node_ind (gI kids) tq Hq _ _); intros q IH x Hx; change (nkids (gI kids) q) with (kids q) in IH.
    rewrite (sub_unfold kids tq Hq) in Hx; destruct Hx as [<-|Hx]; [exists []; rewrite app_nil_r; reflexivity|].
    apply in_flat_map in Hx as (c & Hc & Hx); rewrite Forall_forall in IH.
    destruct (IH c Hc x Hx) as [suf E], (kid_path q c Hc) as [i Ei]; exists (i :: suf).
    rewrite E, Ei, <- app_assoc; reflexivity.
  Qed.
  Lemma strict_path q x : In x (strict q) -> exists i suf, pos_path x = pos_path q ++ i :: suf.
  Proof.
    intros Hx; apply in_flat_map in Hx as (c & Hc & Hx).
    destruct (sub_path c x Hx) as [suf E], (kid_path q c Hc) as [i Ei]; exists i, suf.
    rewrite E, Ei, <- app_assoc; reflexivity.
  Qed.

  Lemma longer {A} (p : list A) i s : p <> p ++ i :: s.
  Proof. intros E; apply (f_equal (@length A)) in E; rewrite app_length in E; cbn in E; lia. Qed.

  Lemma sub_nodup : forall q, NoDup (sub q).
  Proof.
    refine (node_ind (gI kids) tq Hq _ _); intros q IH; change (nkids (gI kids) q) with (kids q) in IH.
    rewrite (sub_unfold kids tq Hq); constructor.
    - intros Hx; destruct (strict_path _ _ Hx) as (i & suf & E); exact (longer _ _ _ E).
    - unfold pkids, pbelow in *; revert IH; generalize 0 as j, (pos_path q) as p, (pos_above q ++ [pos_here q]) as ab.
      induction (pslots gv into_iter q) as [|[n|] l IHl]; intros j p ab IH; cbn in *; [constructor| |auto].
      inversion IH as [|? ? H1 H2]; subst; apply nodup_app; [exact H1|apply IHl; exact H2|].
      intros x Hx Hx'; apply in_flat_map in Hx' as (c & Hc & Hx').
      destruct (sub_path _ _ Hx) as [s Es], (sub_path _ _ Hx') as [s' Es'], (pk_idx _ _ _ _ _ Hc) as (i & m & Hi & -> & _).
      rewrite Es in Es'; cbn in Es'; rewrite <- !app_assoc in Es'; apply app_inv_head in Es'; injection Es' as E _; lia.
  Qed.

  Lemma sub_of_prefix : forall r b q suf, In b (sub r) -> In q (sub r) -> pos_path q = pos_path b ++ suf -> In q (sub b).
  Proof.
    refine (node_ind (gI kids) tq Hq _ _); intros r IH b q suf Hb Hq' E; change (nkids (gI kids) r) with (kids r) in IH.
    pose proof Hb as Hb0; rewrite (sub_unfold kids tq Hq) in Hb; destruct Hb as [<-|Hb]; [exact Hq'|].
    apply in_flat_map in Hb as (c & Hc & Hb).
    destruct (sub_path c b Hb) as [sb Esb], (kid_path r c Hc) as [i Ei].
    rewrite (sub_unfold kids tq Hq) in Hq'; destruct Hq' as [<-|Hq'].
    - exfalso; rewrite Esb, Ei, <- !app_assoc in E; exact (longer _ _ _ E).
    - apply in_flat_map in Hq' as (c' & Hc' & Hq').
      destruct (sub_path c' q Hq') as [sq Esq], (kid_path r c' Hc') as [i' Ei'].
      assert (Ec : c = c').
      { rewrite Esq, Ei', Esb, Ei, <- !app_assoc in E; apply app_inv_head in E; injection E as -> _.
        eapply kid_inj; eauto. }
      subst c'; rewrite Forall_forall in IH; exact (IH c Hc b q suf Hb Hq' E).
  Qed.

  (** ** The main lemma *)
  Section Main.
    Context (r : pos Nd) (ys ns : list (pos Nd)) (B : list (pos Nd)).
    Hypothesis Hperm : Permutation (ys ++ ns) (sub r).
    Hypothesis H1 : filter leafb ns = flat_map (fun b => filter leafb (sub b)) B.
    Hypothesis H2 : forall b, In b B -> exists m q, In b (kids m) /\ In q ys /\ In q (sub m).
    Hypothesis H3 : forall b x, In b B -> In x (sub b) -> In x ns.

    Lemma in_r x : In x (ys ++ ns) <-> In x (sub r).
    Proof. split; apply Permutation_in; [|apply Permutation_sym]; exact Hperm. Qed.

    Lemma entered_top b : In b B -> parent_entered ys b = true.
    Proof.
      intros Hb; destruct (H2 b Hb) as (m & q & Hm & Hy & Hs); apply existsb_exists; exists q; split; [exact Hy|].
      destruct (kid_path m b Hm) as [i ->]; rewrite removelast_last; apply prefixb_spec, sub_path, Hs.
    Qed.

    Lemma not_entered b x : In b B -> In x (strict b) -> parent_entered ys x = false.
    Proof.
      intros Hb Hx; destruct (parent_entered ys x) eqn:E; [exfalso|reflexivity].
      apply existsb_exists in E as (q & Hy & E); apply prefixb_spec in E as [s Es].
      destruct (strict_path _ _ Hx) as (i & suf & Ex).
      assert (Hp : exists s', pos_path q = pos_path b ++ s').
      { rewrite Ex in Es; rewrite removelast_app in Es by discriminate; rewrite Es, <- app_assoc; eexists; reflexivity. }
      destruct Hp as [s' Es'].
      assert (Hin : In q (sub b)).
      { refine (sub_of_prefix r b q s' _ _ Es').
        - apply in_r, in_app_iff; right; apply (H3 b); [exact Hb|apply (sub_self kids tq Hq)].
        - apply in_r, in_app_iff; left; exact Hy. }
      refine (nodup_app_disj ys ns q _ Hy (H3 b q Hb Hin)).
      eapply Permutation_NoDup; [apply Permutation_sym, Hperm|apply sub_nodup].
    Qed.

    Lemma mid_main : filter (fun p => leafb p && negb (parent_entered ys p)) ns =
      flat_map (fun b => if leafb b then [] else filter leafb (sub b)) B.
    Proof.
      assert (E : filter (fun p => leafb p && negb (parent_entered ys p)) ns =
                  filter (fun p => negb (parent_entered ys p)) (filter leafb ns)).
      { clear; induction ns as [|x l IH]; [reflexivity|]; cbn; destruct (leafb x); cbn; rewrite IH; reflexivity. }
      rewrite E, H1, filter_flat_map; apply flat_map_ext_Forall, Forall_forall.
      intros b Hb; rewrite !(sub_unfold kids tq Hq b); cbn [filter].
      assert (Es : filter (fun p => negb (parent_entered ys p)) (filter leafb (strict b)) = filter leafb (strict b)).
      { pose proof (not_entered b) as Hn; revert Hn; generalize (strict b) as l; induction l as [|x l IH]; intros Hn; [reflexivity|].
        cbn [filter]; destruct (leafb x); cbn [filter].
        - rewrite (Hn x Hb (or_introl eq_refl)); cbn; f_equal; apply IH; intros y Hy Hin; apply Hn; [exact Hy|right; exact Hin].
        - apply IH; intros y Hy Hin; apply Hn; [exact Hy|right; exact Hin]. }
      destruct (leafb b) eqn:El; cbn [filter].
      - rewrite (leafb_strict kids tq b El), (entered_top b Hb); reflexivity.
      - exact Es.
    Qed.
  End Main.

  (** ** The iterators *)
  Context (gvc : Nd -> V * list Nd) (n0 : Nd).
  Hypothesis Hg : forall n, gvc n = (nval gv n, flat_map opt_list (slots n)).
  Let r : pos Nd := mkPos [] [] n0.
  Definition pv (p : pos Nd) : V := nval gv (pos_here p).

  Lemma here_pk p ab (l : list (option Nd)) : forall j, map pos_here (pk p ab j l) = flat_map opt_list l.
  Proof. induction l as [|[c|] l IH]; intros j; cbn; rewrite ?IH; reflexivity. Qed.
  Lemma Hnat q : gvc (pos_here q) = (pv (fst (gI kids q)), map pos_here (snd (gI kids q))).
  Proof. rewrite Hg; cbn; unfold pkids, pbelow; rewrite here_pk; reflexivity. Qed.
  Lemma leafb_leaf q : leafb q = is_leaf gvc (pos_here q).
  Proof.
    unfold ProofsLeavesMid.leafb, is_leaf, nkids; cbn; rewrite Hg; cbn [snd].
    fold (nkids gv (pos_here q)); rewrite <- (here_pk (pos_path q) (pos_above q ++ [pos_here q]) _ 0).
    unfold pkids, pbelow, pslots; destruct (pk _ _ _ _); reflexivity.
  Qed.

  Definition spec_mid (L : list (pos Nd)) (k : nat) : list V :=
    map pv (filter (fun p => is_leaf gvc (pos_here p) && negb (parent_entered (firstn k L) p)) (skipn k L)).

  Lemma spec_0 L : spec_mid L 0 = map pv (filter leafb L).
  Proof.
    unfold spec_mid; cbn; f_equal; apply filter_ext; intros x; rewrite leafb_leaf, andb_true_r; reflexivity.
  Qed.

  Lemma dl_fresh : yields (dleaves_next gvc) (mkDl (Some n0) [] [] []) (map pv (filter leafb (sub r))).
  Proof.
    pose proof (dleaves_yields_fresh (gI kids) tq Hq r []) as H.
    apply (yields_sim_ok _ _ _ _ (nat_dl pos_here pv (gI kids) gvc Hnat)) in H.
    change (map (nval (gI kids))) with (map (fun x : pos Nd => x)) in H; rewrite map_id in H; exact H.
  Qed.

  (** The state after [k] calls, as [leaves()] makes it: the nodes in [B] are children of nodes at or above one that has been
      returned, and the leaves that are left are those below the nodes of [B]. *)
  Definition mid_state (L : list (pos Nd)) (k : nat) (s : dleaves Nd V) : Prop :=
    exists B I', s = mkDl None (map (map pos_here) B) [] (map pv I') /\
      filter leafb (skipn k L) = flat_map (fun b => filter leafb (sub b)) (concat B) /\
      (exists x, In x (firstn k L) /\ under kids tq x B) /\
      (forall b x, In b (concat B) -> In x (sub b) -> In x (skipn k L)).

  Lemma dl_mid L s k : Permutation L (sub r) -> mid_state L k s -> yields (dleaves_next gvc) s (spec_mid L k).
  Proof.
    intros HL (B & I' & -> & E1 & (x & Hx & HU) & E3).
    pose proof (dleaves_yields_mid (gI kids) tq Hq B I') as H.
    apply (yields_sim_ok _ _ _ _ (nat_dl pos_here pv (gI kids) gvc Hnat)) in H.
    unfold m_dl in H; cbn [dl_root dl_bottom dl_top dl_items option_map map] in H.
    assert (E : spec_mid L k = map pv (flat_map (skipN (gI kids) tq) (concat B))); [|rewrite E; exact H].
    unfold spec_mid; f_equal.
    rewrite (filter_ext _ (fun p => leafb p && negb (parent_entered (firstn k L) p))) by (intros; rewrite leafb_leaf; reflexivity).
    rewrite (mid_main r _ _ (concat B)); auto.
    - apply flat_map_ext; intros b; unfold skipN, leavesN, ProofsLeavesMid.leafb.
      change (map (nval (gI kids))) with (map (fun x : pos Nd => x)); rewrite map_id; reflexivity.
    - rewrite firstn_skipn; exact HL.
    - intros b Hb; destruct (under_parent kids tq Hq B x b HU Hb) as (m & Hm & Hs); exists m, x; auto.
  Qed.

  Lemma fpre_sub l : flat_map (fpre (gI kids) tq) l = flat_map sub l.
  Proof. apply flat_map_ext; intros q; unfold fpre; apply map_id. Qed.

  Lemma pre_mid k s : after (pre_next gvc) (S k) (pre_new n0) s -> mid_state (sub r) (S k) (pre_leaves s).
  Proof.
    intros Ha.
    destruct (after_back (m_pre pos_here) _ _ _ (nat_pre pos_here pv (gI kids) gvc Hnat) (S k) (pre_new r) _ s
                (pre_yields (gI kids) tq Hq r) Ha) as (s1 & H1 & ->).
    assert (HR0 : pre_R (gI kids) tq (pre_new r) (sub r)).
    { unfold pre_R; cbn [pre_new pre_root pre_stack concat opt_list]; rewrite fpre_sub; cbn; rewrite !app_nil_r; reflexivity. }
    pose proof (step_inv_after _ _ (pre_step (gI kids) tq Hq) _ _ _ _ HR0 H1) as HR; unfold pre_R in HR.
    assert (HR0' : pre_R (gI kids) tq (pre_new r) (r :: strict r)) by (rewrite <- (sub_unfold kids tq Hq); exact HR0).
    destruct (ghost_after _ _ (pre_U kids tq) (pre_step (gI kids) tq Hq) (pre_U_step kids tq Hq) k _ _ _ s1
                (fun f o s2 => pre_U_first kids tq Hq f r o s2) HR0' H1) as (x & Hx & Hroot & HU).
    rewrite <- (sub_unfold kids tq Hq) in Hx.
    rewrite Hroot in HR; cbn [opt_list flat_map app] in HR; rewrite fpre_sub in HR.
    exists (pre_stack s1), []; split; [|split; [|split]].
    - unfold pre_leaves, m_pre; cbn; rewrite Hroot; reflexivity.
    - rewrite HR, filter_flat_map; reflexivity.
    - exists x; auto.
    - intros b y Hb Hy; rewrite HR; apply in_flat_map; exists b; auto.
  Qed.

  Lemma pre_leaves_mid k s : after (pre_next gvc) k (pre_new n0) s ->
    yields (dleaves_next gvc) (pre_leaves s) (spec_mid (preorder (T [] [] n0)) k).
  Proof.
    intros Ha; change (preorder (T [] [] n0)) with (sub r); destruct k as [|k].
    - rewrite <- (after_fun _ _ _ _ _ (after_0 _ _) Ha), spec_0; exact dl_fresh.
    - apply dl_mid; [reflexivity|apply pre_mid, Ha].
  Qed.

  Lemma fpost_post l : flat_map (fpost (gI kids) tq) l = flat_map (fun q => postorder (tq q)) l.
  Proof. apply flat_map_ext; intros q; unfold fpost; apply map_id. Qed.

  Lemma post_out_leaves : forall items B x, chain kids tq x items B ->
    filter leafb (post_out (gI kids) tq items B) = flat_map (fun b => filter leafb (sub b)) (concat B) /\
    forall b y, In b (concat B) -> In y (sub b) -> In y (post_out (gI kids) tq items B).
  Proof.
    induction items as [|m items IH]; intros [|l B] x H; cbn in H; try (exfalso; exact H); [split; [reflexivity|intros ? ? []]|].
    destruct H as (Hx & Hi & H); cbn [post_out concat]; destruct (IH B m H) as [E1 E2]; rewrite fpost_post; split.
    - rewrite filter_app, flat_map_app, filter_flat_map; f_equal.
      + apply flat_map_ext; intros q; apply (post_leaves_same kids tq Hq).
      + cbn [filter]; rewrite (strict_leaf kids tq m x Hx); exact E1.
    - intros b y Hb Hy; apply in_app_iff in Hb as [Hb|Hb]; apply in_app_iff; [left|right; right; eauto].
      apply in_flat_map; exists b; split; [exact Hb|].
      eapply Permutation_in; [apply Permutation_sym, postorder_perm|exact Hy].
  Qed.

  Lemma post_mid k s : after (post_next gvc) (S k) (post_new n0) s -> mid_state (postorder (T [] [] n0)) (S k) (post_leaves s).
  Proof.
    intros Ha; set (L := postorder (T [] [] n0)).
    destruct (after_back (m_post pos_here pv) _ _ _ (nat_post pos_here pv (gI kids) gvc Hnat) (S k) (post_new r) _ s
                (post_yields (gI kids) tq Hq r) Ha) as (s1 & H1 & ->).
    assert (HR0 : post_R (gI kids) tq (post_new r) L).
    { split; [reflexivity|]; cbn; split; [reflexivity|]; unfold fpost; symmetry; apply map_id. }
    pose proof (step_inv_after _ _ (post_step (gI kids) tq Hq) _ _ _ _ HR0 H1) as HR; unfold post_R in HR.
    assert (HL : exists n ns, L = n :: ns).
    { destruct L eqn:E; [|eauto]; exfalso.
      assert (Hp : Permutation L (sub r)) by apply postorder_perm.
      rewrite E, (sub_unfold kids tq Hq) in Hp; apply Permutation_nil in Hp; discriminate. }
    destruct HL as (n1 & ns & EL).
    destruct (ghost_after _ _ (post_U kids tq) (post_step (gI kids) tq Hq) (post_U_step kids tq Hq) k _ n1 ns s1
                (fun f o s2 => post_U_first kids tq Hq f r o s2) ltac:(rewrite <- EL; exact HR0) H1) as (x & Hx & Hroot & HU).
    rewrite <- EL in Hx.
    rewrite Hroot in HR; destruct HR as [_ HR].
    destruct (post_out_leaves _ _ _ HU) as [E1 E2].
    exists (po_stack s1), []; split; [|split; [|split]].
    - unfold post_leaves, m_post; cbn; rewrite Hroot; reflexivity.
    - rewrite HR; exact E1.
    - exists x; split; [exact Hx|eapply (chain_under kids tq Hq); exact HU].
    - rewrite HR; exact E2.
  Qed.

  Lemma post_leaves_mid k s : after (post_next gvc) k (post_new n0) s ->
    yields (dleaves_next gvc) (post_leaves s) (spec_mid (postorder (T [] [] n0)) k).
  Proof.
    intros Ha; destruct k as [|k].
    - rewrite <- (after_fun _ _ _ _ _ (after_0 _ _) Ha), spec_0.
      change (T [] [] n0) with (tq r); rewrite (post_leaves_same kids tq Hq); exact dl_fresh.
    - apply dl_mid; [apply postorder_perm|apply post_mid, Ha].
  Qed.
End Pos.

(** ** Inorder *)
Section InMid.
  Context {Nd V : Type} (gvcb : Nd -> V * (option Nd * option Nd)) (bt : Nd -> btree Nd).
  Hypothesis Hbt : node_btree gvcb bt.
  Context (n0 : Nd).
  Let T := fun p ab n => flat (bannotate p ab (bt n)).
  Let HT : slot_law (fun n => pair_iter (nkids gvcb n)) T := slot_law_binary gvcb bt Hbt.
  Local Notation kids := (pkids gvcb pair_iter).
  Local Notation tq := (ptree T).
  Local Notation sub := (sub (ptree T)).
  Local Notation leafb := (leafb kids).
  Let r : pos Nd := mkPos [] [] n0.
  Let psi : pos Nd -> V := pv gvcb.

  Lemma Hg_binary n : binary_gvc gvcb n = (nval gvcb n, flat_map opt_list (pair_iter (nkids gvcb n))).
  Proof. unfold binary_gvc, nval, nkids; destruct (gvcb n); reflexivity. Qed.

  Definition lq (q : pos Nd) : option (pos Nd) :=
    option_map (mkPos (pos_path q ++ [0]) (pos_above q ++ [pos_here q])) (nleft gvcb (pos_here q)).
  Definition rq (q : pos Nd) : option (pos Nd) :=
    option_map (mkPos (pos_path q ++ [1]) (pos_above q ++ [pos_here q])) (nright gvcb (pos_here q)).
  Definition tb (q : pos Nd) : btree (pos Nd) := bannotate (pos_path q) (pos_above q) (bt (pos_here q)).

  Lemma kids_lr q : kids q = opt_list (lq q) ++ opt_list (rq q).
  Proof.
    unfold pkids, pbelow, pslots, lq, rq; rewrite nkids_pair; cbn.
    destruct (nleft gvcb (pos_here q)), (nright gvcb (pos_here q)); reflexivity.
  Qed.
  Lemma tb_node : node_btree (gIb lq rq) tb.
  Proof.
    intros q; unfold tb at 1, gIb, lq, rq; rewrite (bt_unfold _ _ Hbt); cbn [bannotate fst snd].
    destruct q as [p ab n]; cbn [pos_path pos_above pos_here]; f_equal.
    - destruct (nleft gvcb n); reflexivity.
    - destruct (nright gvcb n); reflexivity.
  Qed.
  Lemma in_nat q : gvcb (pos_here q) =
    (psi (fst (gIb lq rq q)), (option_map pos_here (fst (snd (gIb lq rq q))), option_map pos_here (snd (snd (gIb lq rq q))))).
  Proof.
    rewrite (gvcb_eq gvcb); cbn; unfold psi, pv, lq, rq; do 2 f_equal.
    - destruct (nleft gvcb (pos_here q)); reflexivity.
    - destruct (nright gvcb (pos_here q)); reflexivity.
  Qed.

  Lemma in_perm q : Permutation (inorder (tb q)) (sub q).
  Proof. apply inorder_perm. Qed.
  Lemma in_leaves_same : forall q, filter leafb (inorder (tb q)) = filter leafb (sub q).
  Proof.
    refine (bnode_ind (gIb lq rq) tb tb_node _ _); intros q IHl IHr.
    change (nleft (gIb lq rq) q) with (lq q) in IHl; change (nright (gIb lq rq) q) with (rq q) in IHr.
    rewrite (sub_unfold kids tq (Hq gvcb pair_iter T HT)), (tb_node q); cbn [inorder gIb fst snd].
    rewrite filter_app; cbn [filter app].
    destruct (leafb q) eqn:El.
    - rewrite (leafb_strict kids tq q El).
      unfold ProofsLeavesMid.leafb, is_leaf, nkids in El; cbn [gI snd] in El; rewrite kids_lr in El.
      destruct (lq q), (rq q); try discriminate; reflexivity.
    - rewrite kids_lr, flat_map_app, filter_app.
      destruct (lq q) as [c|], (rq q) as [d|]; cbn [option_map opt_list flat_map]; rewrite ?app_nil_r; cbn in IHl, IHr; rewrite ?IHl, ?IHr; reflexivity.
  Qed.

  Lemma ino_in q : ino (gIb lq rq) tb q = inorder (tb q).
  Proof. apply map_id. Qed.

  Lemma in_out_leaves : forall items rs x, chain kids tq x items (map opt_list rs) ->
    filter leafb (in_out (gIb lq rq) tb items rs) = flat_map (fun b => filter leafb (sub b)) (concat (map opt_list rs)) /\
    forall b y, In b (concat (map opt_list rs)) -> In y (sub b) -> In y (in_out (gIb lq rq) tb items rs).
  Proof.
    induction items as [|m items IH]; intros [|o rs] x H; cbn in H; try (exfalso; exact H); [split; [reflexivity|intros ? ? []]|].
    destruct H as (Hx & Hi & H); cbn [in_out concat map]; destruct (IH rs m H) as [E1 E2]; split.
    - cbn [filter]; rewrite (strict_leaf kids tq m x Hx), filter_app, flat_map_app, E1; f_equal.
      destruct o as [b|]; [|reflexivity]; cbn; rewrite app_nil_r, ino_in; apply in_leaves_same.
    - intros b y Hb Hy; right; apply in_app_iff in Hb as [Hb|Hb]; apply in_app_iff; [left|right; eauto].
      destruct o as [c|]; [|destruct Hb]; destruct Hb as [->|[]]; cbn; rewrite ino_in.
      eapply Permutation_in; [apply Permutation_sym, in_perm|exact Hy].
  Qed.

  Lemma in_mid k s : after (in_next gvcb) (S k) (in_new n0) s ->
    exists s', in_leaves s = Ok s' /\ mid_state gvcb pair_iter T (inorder (bpositions (bt n0))) (S k) s'.
  Proof.
    intros Ha; set (L := inorder (bpositions (bt n0))).
    destruct (after_back (m_in pos_here psi) _ _ _ (nat_in pos_here psi (gIb lq rq) gvcb in_nat) (S k) (in_new r) _ s
                (in_yields (gIb lq rq) tb tb_node r) Ha) as (s1 & H1 & ->).
    assert (HR0 : in_R (gIb lq rq) tb (in_new r) L).
    { right; exists (Some r), []; split; [reflexivity|split; [reflexivity|]]; cbn; rewrite app_nil_r, ino_in; reflexivity. }
    pose proof (step_inv_after _ _ (in_step (gIb lq rq) tb tb_node) _ _ _ _ HR0 H1) as HR; unfold in_R in HR.
    assert (HL : exists n ns, L = n :: ns).
    { destruct L eqn:E; [|eauto]; exfalso.
      assert (Hp : Permutation L (sub r)) by exact (in_perm r).
      rewrite E, (sub_unfold kids tq (Hq gvcb pair_iter T HT)) in Hp; apply Permutation_nil in Hp; discriminate. }
    destruct HL as (n1 & ns & EL).
    destruct (ghost_after _ _ (in_U kids tq) (in_step (gIb lq rq) tb tb_node)
                (in_U_step kids tq (Hq gvcb pair_iter T HT) lq rq kids_lr) k _ n1 ns s1
                (fun f o s2 => in_U_first kids tq (Hq gvcb pair_iter T HT) lq rq kids_lr f r o s2)
                ltac:(rewrite <- EL; exact HR0) H1) as (x & Hx & Hmoved & HU).
    rewrite <- EL in Hx.
    unfold in_leaves, m_in; cbn [in_moved in_right in_items]; rewrite Hmoved; eexists; split; [reflexivity|].
    assert (EB : map opt_list (map (option_map pos_here) (in_right s1)) = map (map pos_here) (map opt_list (in_right s1))).
    { rewrite !map_map; apply map_ext; intros [q|]; reflexivity. }
    rewrite EB.
    assert (HH : filter leafb (skipn (S k) L) = flat_map (fun b => filter leafb (sub b)) (concat (map opt_list (in_right s1))) /\
                 (under kids tq x (map opt_list (in_right s1))) /\
                 (forall b y, In b (concat (map opt_list (in_right s1))) -> In y (sub b) -> In y (skipn (S k) L))).
    { destruct (in_right s1) as [|o rs] eqn:Er.
      - destruct HR as [[_ HR]|(? & ? & E & _)]; [|discriminate]; rewrite HR, HU; cbn; split; [reflexivity|split; [exact I|intros ? ? []]].
      - destruct HU as [Hi HU]; pose proof (chain_length _ _ _ _ _ HU) as Hlen; rewrite map_length in Hlen.
        destruct HR as [[Hl _]|(o' & rs' & E & Hl & HR)]; [cbn in Hl; lia|]; injection E as <- <-; rewrite HR.
        destruct (in_out_leaves _ _ _ HU) as [E1 E2]; split; [|split].
        + rewrite filter_app, E1; cbn [map concat]; rewrite flat_map_app; f_equal.
          destruct o as [b|]; [|reflexivity]; cbn; rewrite app_nil_r, ino_in; apply in_leaves_same.
        + exists x; split; [apply (sub_self kids tq (Hq gvcb pair_iter T HT))|split; [exact Hi|exact (chain_under kids tq (Hq gvcb pair_iter T HT) _ _ _ HU)]].
        + intros b y Hb Hy; cbn in Hb; apply in_app_iff in Hb as [Hb|Hb]; apply in_app_iff; [left|right; eauto].
          destruct o as [c|]; [|destruct Hb]; destruct Hb as [->|[]]; cbn; rewrite ino_in.
          eapply Permutation_in; [apply Permutation_sym, in_perm|exact Hy]. }
    destruct HH as (E1 & E2 & E3).
    exists (map opt_list (in_right s1)), (in_items s1); split; [reflexivity|split; [exact E1|split; [exists x; auto|exact E3]]].
  Qed.

  Lemma in_leaves_mid k s : after (in_next gvcb) k (in_new n0) s ->
    exists s', in_leaves s = Ok s' /\
      yields (dleaves_next (binary_gvc gvcb)) s' (spec_mid gvcb (binary_gvc gvcb) (inorder (bpositions (bt n0))) k).
  Proof.
    intros Ha; destruct k as [|k].
    - rewrite <- (after_fun _ _ _ _ _ (after_0 _ _) Ha); eexists; split; [reflexivity|].
      rewrite (spec_0 gvcb pair_iter (binary_gvc gvcb) Hg_binary).
      change (bpositions (bt n0)) with (tb r); rewrite in_leaves_same.
      exact (dl_fresh gvcb pair_iter T HT (binary_gvc gvcb) n0 Hg_binary).
    - destruct (in_mid k s Ha) as (s' & E & Hs'); exists s'; split; [exact E|].
      exact (dl_mid gvcb pair_iter T HT (binary_gvc gvcb) n0 Hg_binary _ s' (S k) (in_perm r) Hs').
  Qed.
End InMid.
