(** * Traversals of trees that are made as they are traversed. *)
From Coq Require Import Permutation.
From Verif Require Import Prelim PrelimFacts Spec SpecFacts SpecObs SpecLazy ModelNode NodeFacts ModelPre ModelPost ModelBfs ModelLazy FuelMono ProofsPlain ProofsPre ProofsPost ProofsNat ProofsNatAnc.

Ltac more_tac :=
  lazymatch goal with
  | |- more (fun f => bindR (@?m f) (@?k f)) => apply (more_bind m k); [more_tac|intros; cbv beta; more_tac]
  | |- more (fun f => loop ?b f ?s) => apply (more_loop b); intros ?; try (intros ? ? ? ?; reflexivity)
  | |- more (fun f => match ?x with _ => _ end) => destruct x; more_tac
  | |- more (fun _ => _) => try apply more_const
  end.

(** ** One machine follows another, [m] counting the calls that can still be followed *)
Section Follow.
  Context {S1 S2 O1 O2 : Type}.
  Variables (next1 : nat -> S1 -> Res (O1 * S1)) (next2 : nat -> S2 -> Res (O2 * S2)) (h : O1 -> O2) (g : nat -> nat).
  Variable R : nat -> list O1 -> S1 -> S2 -> Prop.
  Hypothesis Hstep : forall F m Y s1 s2 x s1', R (S m) Y s1 s2 -> next1 F s1 = Ok (x, s1') ->
    exists s2', next2 (g F) s2 = Ok (h x, s2') /\ R m (Y ++ [x]) s1' s2'.

  Lemma follow_calls F : forall k Y s1 s2 xs s1', R k Y s1 s2 -> calls next1 k s1 F = Ok (xs, s1') ->
    exists s2', calls next2 k s2 (g F) = Ok (map h xs, s2') /\ R 0 (Y ++ xs) s1' s2'.
  Proof.
    induction k as [|k IH]; intros Y s1 s2 xs s1' HR; cbn [calls].
    - intros [= <- <-]; exists s2; rewrite app_nil_r; auto.
    - destruct (next1 F s1) as [[x t1]| | |] eqn:E1; try discriminate; cbn [bindR].
      destruct (calls next1 k t1 F) as [[ys u1]| | |] eqn:E2; try discriminate; cbn [bindR]; intros [= <- <-].
      destruct (Hstep F k Y s1 s2 x t1 HR E1) as (t2 & Et & HR1); rewrite Et; cbn [bindR].
      destruct (IH _ _ _ _ _ HR1 E2) as (u2 & Eu & HR2); rewrite Eu; cbn [bindR]; exists u2; split; [reflexivity|].
      rewrite <- app_assoc in HR2; exact HR2.
  Qed.

  Hypothesis Hmore : forall s, more (fun f => next2 f s).

  Lemma follow k s1 s2 xs s1' : R k [] s1 s2 -> calls next1 k s1 ⇓ Ok (xs, s1') ->
    exists s2', calls next2 k s2 ⇓ Ok (map h xs, s2') /\ R 0 xs s1' s2'.
  Proof.
    intros HR [F HF]; destruct (follow_calls F k [] s1 s2 xs s1' HR (HF F (le_n F))) as (s2' & E & HR'); exists s2'; split; [|exact HR'].
    apply more_conv with (g F); [apply more_calls, Hmore|exact E|discriminate].
  Qed.
End Follow.

Section Plain.
  Context {Nd V C It : Type}.
  Variable gv : Nd -> V * C.
  Variable into_iter : C -> It.
  Variable poll : It -> option Nd * It.
  Local Notation value := (nval gv).
  Local Notation kids n := (into_iter (nkids gv n)).

  (** [U m it l]: polled [m] times, [it] and what it gives are as [l]. *)
  Variable U : nat -> It -> list (tree Nd) -> Prop.
  Hypothesis U_le : forall m it l, U (S m) it l -> U m it l.
  Hypothesis U_poll : forall m it l, U (S m) it l ->
    match l with
    | [] => exists it', poll it = (None, it')
    | t :: l' => exists it', poll it = (Some (root t), it') /\ U m it' l' /\ U m (kids (root t)) (subs t)
    end.
  Definition Un m (t : tree Nd) := U m (kids (root t)) (subs t).

  Lemma Us_le m its ls : Forall2 (U (S m)) its ls -> Forall2 (U m) its ls.
  Proof. induction 1; constructor; auto. Qed.

  Definition here (x : option Nd) := opt_list x.

  (** *** Breadth first *)
  Lemma bfs_loop F m log : forall q1 q2 x s1', Forall2 (U (S m)) q2 q1 -> loop (bfs_next_body tree_gvc) F q1 = Ok (x, s1') ->
    exists s2', loop (lbfs_body gv into_iter poll log) F q2 = Ok (option_map value x, s2') /\
      lb_log s2' = opt_list x ++ log /\ lb_root s2' = None /\ bfs_root s1' = None /\ Forall2 (U m) (lb_queue s2') (bfs_queue s1').
  Proof.
    induction F as [|F IH]; intros q1 q2 x s1' HU; [discriminate|]; cbn [loop]; unfold bfs_next_body at 1, lbfs_body at 1.
    destruct HU as [|it l q2 q1 Hl HU]; [intros [= <- <-]; eexists; repeat split; constructor|].
    pose proof (U_poll _ _ _ Hl) as Hp; destruct l as [|t l].
    - destruct Hp as (it' & ->); apply IH, HU.
    - destruct Hp as (it' & -> & Hl' & Ht); destruct t as [n ts]; cbn [root subs tree_gvc] in *; rewrite (gv_eq gv n).
      intros [= <- <-]; eexists; split; [reflexivity|]; repeat split; cbn [lb_queue bfs_queue].
      cbn [app]; constructor; [exact Hl'|]; apply Forall2_app; [apply Us_le, HU|constructor; [exact Ht|constructor]].
  Qed.

  Definition Rbfs m (Y : list (option Nd)) (s1 : bfs_iter (tree Nd)) (s2 : lbfs Nd It) : Prop :=
    lb_log s2 = rev (flat_map opt_list Y) /\ Forall2 (U m) (lb_queue s2) (bfs_queue s1) /\
    lb_root s2 = option_map (@root Nd) (bfs_root s1) /\ (forall t, bfs_root s1 = Some t -> Un m t).

  Lemma rev_here (Y : list (option Nd)) x : opt_list x ++ rev (flat_map opt_list Y) = rev (flat_map opt_list (Y ++ [x])).
  Proof. rewrite flat_map_app, rev_app_distr; cbn; rewrite app_nil_r; destruct x; reflexivity. Qed.

  Lemma bfs_follow F m Y s1 s2 x s1' : Rbfs (S m) Y s1 s2 -> bfs_next tree_gvc F s1 = Ok (x, s1') ->
    exists s2', lbfs_next gv into_iter poll F s2 = Ok (option_map value x, s2') /\ Rbfs m (Y ++ [x]) s1' s2'.
  Proof.
    intros (Hlog & Hq & Hr & Ht); unfold bfs_next, lbfs_next; rewrite Hr.
    destruct (bfs_root s1) as [[n ts]|] eqn:Er; cbn [option_map root tree_gvc].
    - rewrite (gv_eq gv n); intros [= <- <-]; eexists; split; [reflexivity|].
      repeat split; cbn [lb_log lb_queue lb_root bfs_queue bfs_root]; [rewrite Hlog; apply (rev_here Y (Some n))| |discriminate].
      apply Forall2_app; [apply Us_le, Hq|constructor; [apply U_le, (Ht _ eq_refl)|constructor]].
    - intros E; destruct (bfs_loop F m (lb_log s2) _ _ _ _ Hq E) as (s2' & -> & H1 & H2 & H3 & H4); exists s2'; split; [reflexivity|].
      repeat split; [rewrite H1, Hlog; apply rev_here|exact H4|rewrite H2, H3; reflexivity|rewrite H3; discriminate].
  Qed.

  Lemma more_lbfs s : more (fun f => lbfs_next gv into_iter poll f s).
  Proof. unfold lbfs_next; more_tac. Qed.

  (** *** Preorder *)
  Lemma pre_loop F m : forall q1 q2 x r1, Forall2 (U (S m)) q2 q1 -> loop pre_next_body F q1 = Ok (x, r1) ->
    exists r2, loop (lpre_body poll) F q2 = Ok (option_map (@root Nd) x, r2) /\ Forall2 (U m) r2 r1 /\ (forall t, x = Some t -> Un m t).
  Proof.
    induction F as [|F IH]; intros q1 q2 x r1 HU; [discriminate|]; cbn [loop]; unfold pre_next_body at 1, lpre_body at 1.
    destruct HU as [|it l q2 q1 Hl HU]; [intros [= <- <-]; eexists; repeat split; [constructor|discriminate]|].
    pose proof (U_poll _ _ _ Hl) as Hp; destruct l as [|t l].
    - destruct Hp as (it' & ->); apply IH, HU.
    - destruct Hp as (it' & -> & Hl' & Ht); intros [= <- <-]; eexists; split; [reflexivity|]; split.
      + constructor; [exact Hl'|apply Us_le, HU].
      + intros ? [= <-]; exact Ht.
  Qed.

  Definition Rpre m (Y : list (option Nd)) (s1 : pre_iter (tree Nd)) (s2 : lpre Nd It) : Prop :=
    lp_log s2 = rev (flat_map opt_list Y) /\ Forall2 (U m) (lp_stack s2) (pre_stack s1) /\
    lp_root s2 = option_map (@root Nd) (pre_root s1) /\ (forall t, pre_root s1 = Some t -> Un m t).

  Lemma pre_follow F m Y s1 s2 x s1' : Rpre (S m) Y s1 s2 -> pre_next tree_gvc F s1 = Ok (x, s1') ->
    exists s2', lpre_next gv into_iter poll F s2 = Ok (option_map value x, s2') /\ Rpre m (Y ++ [x]) s1' s2'.
  Proof.
    intros (Hlog & Hq & Hr & Ht); unfold pre_next, lpre_next; rewrite Hr.
    destruct (pre_root s1) as [[n ts]|] eqn:Er; cbn [option_map root tree_gvc].
    - rewrite (gv_eq gv n); intros [= <- <-]; eexists; split; [reflexivity|].
      repeat split; cbn [lp_log lp_stack lp_root pre_stack pre_root]; [rewrite Hlog; apply (rev_here Y (Some n))| |discriminate].
      constructor; [apply U_le, (Ht _ eq_refl)|apply Us_le, Hq].
    - destruct (loop pre_next_body F (pre_stack s1)) as [[y r1]| | |] eqn:E; try discriminate; cbn [bindR].
      destruct (pre_loop F m _ _ _ _ Hq E) as (r2 & -> & H1 & H2); cbn [bindR].
      destruct y as [[n ts]|]; cbn [option_map root tree_gvc].
      + rewrite (gv_eq gv n); intros [= <- <-]; eexists; split; [reflexivity|].
        repeat split; cbn [lp_log lp_stack lp_root pre_stack pre_root]; [rewrite Hlog; apply (rev_here Y (Some n))| |discriminate].
        constructor; [apply (H2 _ eq_refl)|exact H1].
      + intros [= <- <-]; eexists; split; [reflexivity|].
        repeat split; cbn [lp_log lp_stack lp_root pre_stack pre_root]; [rewrite Hlog; apply (rev_here Y None)|exact H1|discriminate].
  Qed.

  Lemma more_lpre s : more (fun f => lpre_next gv into_iter poll f s).
  Proof. unfold lpre_next; more_tac. Qed.

  (** *** Preorder with ancestors *)
  Definition olast (x : option (list Nd)) : list Nd := match x with Some l => opt_list (hd_error (rev l)) | None => [] end.
  Lemma olast_last l n : olast (Some (l ++ [n])) = [n].
  Proof. unfold olast; rewrite rev_app_distr; reflexivity. Qed.
  Lemma rev_olast Y x l : olast x = l -> l ++ rev (flat_map olast Y) = rev (flat_map olast (Y ++ [x])).
  Proof.
    intros <-; rewrite flat_map_app, rev_app_distr; cbn; rewrite app_nil_r; f_equal.
    destruct x as [l|]; [|reflexivity]; cbn; destruct (rev l); reflexivity.
  Qed.

  Lemma prea_loop F m : forall q1 q2 its x r1 its', Forall2 (U (S m)) q2 q1 -> loop prea_body F (q1, its) = Ok (x, r1, its') ->
    exists r2, loop (lprea_body poll) F (q2, map value its) = Ok (option_map (@root Nd) x, r2, map value its') /\ Forall2 (U m) r2 r1 /\ (forall t, x = Some t -> Un m t).
  Proof.
    induction F as [|F IH]; intros q1 q2 its x r1 its' HU; [discriminate|]; cbn [loop]; unfold prea_body at 1, lprea_body at 1.
    destruct HU as [|it l q2 q1 Hl HU]; [intros [= <- <- <-]; eexists; repeat split; [constructor|discriminate]|].
    pose proof (U_poll _ _ _ Hl) as Hp; destruct l as [|t l].
    - destruct Hp as (it' & ->); replace (tl (map value its)) with (map value (tl its)) by (destruct its; reflexivity); apply IH, HU.
    - destruct Hp as (it' & -> & Hl' & Ht); intros [= <- <- <-]; eexists; split; [reflexivity|]; split.
      + constructor; [exact Hl'|apply Us_le, HU].
      + intros ? [= <-]; exact Ht.
  Qed.

  Definition Rprea m (Y : list (option (list Nd))) (s1 : prea (tree Nd) Nd) (s2 : lprea Nd V It) : Prop :=
    lpa_log s2 = rev (flat_map olast Y) /\ Forall2 (U m) (lpa_stack s2) (pa_stack s1) /\ lpa_items s2 = map value (pa_items s1) /\
    lpa_root s2 = option_map (@root Nd) (pa_root s1) /\ (forall t, pa_root s1 = Some t -> Un m t) /\
    length (pa_stack s1) = length (pa_items s1).

  Lemma prea_items F : forall q its x r its', loop (@prea_body (tree Nd) Nd) F (q, its) = Ok (x, r, its') -> length q = length its ->
    length r = length its' /\ (x = None -> its' = []).
  Proof.
    induction F as [|F IH]; intros q its x r its'; [discriminate|]; cbn [loop]; unfold prea_body at 1.
    destruct q as [|[|t l] q].
    - intros [= <- <- <-]; destruct its; [auto|discriminate].
    - intros Hl Hlen; apply (IH _ _ _ _ _ Hl); destruct its; cbn in *; lia.
    - intros [= <- <- <-] Hlen; split; [exact Hlen|discriminate].
  Qed.

  Lemma prea_follow F m Y s1 s2 x s1' : Rprea (S m) Y s1 s2 -> prea_next tree_gvc F s1 = Ok (x, s1') ->
    exists s2', lprea_next gv into_iter poll F s2 = Ok (option_map (map value) x, s2') /\ Rprea m (Y ++ [x]) s1' s2'.
  Proof.
    intros (Hlog & Hq & Hi & Hr & Ht & Hlen); unfold prea_next, lprea_next, prea_advance, lprea_advance, prea_get; rewrite Hr.
    destruct (pa_root s1) as [[n ts]|] eqn:Er; cbn [option_map root tree_gvc].
    - rewrite (gv_eq gv n); cbn [bindR pa_items lpa_items]; intros [= <- <-]; eexists; split.
      + rewrite Hi; cbn [option_map]; rewrite map_app, map_rev; reflexivity.
      + repeat split; cbn [lpa_log lpa_stack lpa_root lpa_items pa_stack pa_root pa_items]; [|..|discriminate|cbn; lia].
        * rewrite Hlog; apply (rev_olast Y _ [n]), olast_last.
        * constructor; [apply U_le, (Ht _ eq_refl)|apply Us_le, Hq].
    - destruct (loop prea_body F (pa_stack s1, pa_items s1)) as [[[y r1] its]| | |] eqn:E; try discriminate; cbn [bindR].
      destruct (prea_items F _ _ _ _ _ E Hlen) as [Hl Hn].
      rewrite Hi; destruct (prea_loop F m _ _ _ _ _ _ Hq E) as (r2 & -> & H1 & H2); cbn [bindR].
      destruct y as [[n ts]|]; cbn [option_map root tree_gvc].
      + rewrite (gv_eq gv n); cbn [bindR pa_items lpa_items]; intros [= <- <-]; eexists; split.
        * cbn [option_map]; rewrite map_app, map_rev; reflexivity.
        * repeat split; cbn [lpa_log lpa_stack lpa_root lpa_items pa_stack pa_root pa_items]; [|..|discriminate|cbn; lia].
          -- rewrite Hlog; apply (rev_olast Y _ [n]), olast_last.
          -- constructor; [apply (H2 _ eq_refl)|exact H1].
      + rewrite (Hn eq_refl) in *; cbn [bindR pa_items lpa_items map]; intros [= <- <-]; eexists; split; [reflexivity|].
        repeat split; cbn [lpa_log lpa_stack lpa_root lpa_items pa_stack pa_root pa_items]; [|exact H1|discriminate|exact Hl].
        rewrite Hlog; apply (rev_olast Y None []); reflexivity.
  Qed.

  Lemma more_lprea s : more (fun f => lprea_next gv into_iter poll f s).
  Proof. unfold lprea_next, lprea_advance; more_tac. Qed.

  (** *** Breadth first with ancestors *)
  Definition Lbfsa (s1 : bfsa (tree Nd) Nd) (s2 : lbfsa Nd V It) : Prop :=
    lba_is_root s2 = ba_is_root s1 /\ lba_items s2 = map value (ba_items s1) /\ lba_cache s2 = cnm value (ba_cache s1) /\
    lba_stack s2 = map (cnm value) (ba_stack s1).
  Definition agot (l : list Nd) : option (list Nd) := match l with [] => None | _ => Some (rev l) end.

  Lemma bfsa_loop F m : forall s1 s2 s1', Lbfsa s1 s2 -> Forall2 (U (S m)) (lba_queue s2) (ba_queue s1) ->
    loop (bfsa_advance_body tree_gvc) F s1 = Ok s1' ->
    exists s2', loop (lbfsa_body gv into_iter poll) F s2 = Ok s2' /\ Lbfsa s1' s2' /\ Forall2 (U m) (lba_queue s2') (ba_queue s1') /\
      lba_log s2' = olast (agot (ba_items s1')) ++ lba_log s2 /\ ba_is_root s1' = ba_is_root s1.
  Proof.
    induction F as [|F IH]; intros s1 s2 s1' HL HU; [discriminate|]; cbn [loop]; unfold bfsa_advance_body at 1, lbfsa_body at 1.
    destruct HL as (Hr & Hi & Hc & Hs).
    destruct (maybe_pop (ba_items s1, ba_cache s1, ba_stack s1)) as [[[items cache] stack]| | |] eqn:E; try discriminate.
    rewrite Hi, Hc, Hs; pose proof (amaybe_pop_nm value _ _ E) as E2; cbn [anm] in E2; rewrite E2; cbn [bindR]; clear E E2.
    destruct HU as [|it l q2 q1 Hl HU]; [discriminate|].
    pose proof (U_poll _ _ _ Hl) as Hp; destruct l as [|t l].
    - destruct Hp as (it' & ->).
      destruct (to_next_parent F (items, cache, stack)) as [[[items' cache'] stack']| | |] eqn:E; try discriminate.
      pose proof (ato_next_nm value _ _ _ E) as E2; cbn [anm] in E2; rewrite E2; cbn [bindR]; clear E E2.
      destruct HU as [|it2 l2 q2 q1 Hl2 HU].
      + intros [= <-]; eexists; split; [reflexivity|]; split; [split; [exact Hr|split; [reflexivity|split; reflexivity]]|].
        split; [constructor|split; reflexivity].
      + intros E; apply IH with (s2 := mkLbfsa (lba_log s2) (lba_is_root s2) (map value items') (cnm value cache') (map (cnm value) stack') (it2 :: q2)) in E;
          [exact E|split; [exact Hr|split; [reflexivity|split; reflexivity]]|constructor; assumption].
    - destruct Hp as (it' & -> & Hl' & Ht); destruct t as [n ts]; cbn [root subs tree_gvc] in *; rewrite (gv_eq gv n).
      intros [= <-]; eexists; split; [reflexivity|]; split; [split; [exact Hr|split; [reflexivity|split; reflexivity]]|].
      cbn [lba_queue ba_queue lba_log ba_items ba_is_root].
      split; [|split; [cbn [agot rev]; rewrite olast_last; reflexivity|reflexivity]].
      cbn [app]; constructor; [exact Hl'|]; apply Forall2_app; [apply Us_le, HU|constructor; [exact Ht|constructor]].
  Qed.

  Definition Rbfsa m (Y : list (option (list Nd))) (s1 : bfsa (tree Nd) Nd) (s2 : lbfsa Nd V It) : Prop :=
    Lbfsa s1 s2 /\ Forall2 (U m) (lba_queue s2) (ba_queue s1) /\
    if ba_is_root s1 then Y = [] /\ lba_log s2 = ba_items s1 /\ length (ba_items s1) = 1 else lba_log s2 = rev (flat_map olast Y).

  Lemma bfsa_follow F m Y s1 s2 x s1' : Rbfsa (S m) Y s1 s2 -> bfsa_next tree_gvc F s1 = Ok (x, s1') ->
    exists s2', lbfsa_next gv into_iter poll F s2 = Ok (option_map (map value) x, s2') /\ Rbfsa m (Y ++ [x]) s1' s2'.
  Proof.
    intros (HL & Hq & Hlog); unfold bfsa_next, lbfsa_next, bfsa_advance, lbfsa_advance.
    pose proof HL as (Hr & Hi & Hc & Hs); rewrite Hr; destruct (ba_is_root s1) eqn:Er.
    - cbn [bindR]; intros [= <- <-]; destruct Hlog as (-> & Hlog & Hlen).
      unfold bfsa_get; cbn [ba_items lba_items].
      destruct (ba_items s1) as [|a [|b its]]; try discriminate; rewrite Hi.
      eexists; split; [reflexivity|]; split; [split; [reflexivity|split; [reflexivity|split; assumption]]|].
      cbn [lba_queue ba_queue lba_log ba_items ba_is_root]; split; [apply Us_le, Hq|exact Hlog].
    - destruct (loop (bfsa_advance_body tree_gvc) F s1) as [t1| | |] eqn:E; try discriminate; cbn [bindR]; intros [= <- <-].
      destruct (bfsa_loop F m s1 s2 t1 HL Hq E) as (t2 & -> & HL' & Hq' & Hlog' & Hr'); cbn [bindR]; exists t2; split.
      + pose proof HL' as (_ & -> & _); unfold bfsa_get; destruct (ba_items t1); [reflexivity|].
        cbn [map option_map]; rewrite map_rev; reflexivity.
      + split; [exact HL'|]; split; [exact Hq'|]; rewrite Hr', Er, Hlog', Hlog; apply rev_olast; unfold bfsa_get, agot; destruct (ba_items t1); reflexivity.
  Qed.

  Lemma more_to_next_parent {W} (s : dfs_st (V:=W)) : more (fun f => to_next_parent f s).
  Proof.
    destruct s as [[a b] c]; unfold to_next_parent, advance_dfs; destruct (top_children c b).
    - destruct (drop_finished a c); apply more_loop; intros ? ? ? _ _; reflexivity.
    - destruct (set_top_children c b _); apply more_loop; intros ? ? ? _ _; reflexivity.
  Qed.
  Lemma more_lbfsa s : more (fun f => lbfsa_next gv into_iter poll f s).
  Proof.
    unfold lbfsa_next, lbfsa_advance; destruct (lba_is_root s); [more_tac|].
    apply (more_bind (fun f => loop _ f s)); [|intros; apply more_const].
    apply more_loop; intros t; unfold lbfsa_body; destruct (maybe_pop _) as [[[? ?] ?]| | |]; cbn [bindR]; try apply more_const.
    destruct (lba_queue t); [apply more_const|]; destruct (poll i) as [[n|] ?]; [apply more_const|].
    apply (more_bind (fun f => to_next_parent f _) (fun _ x => _)); [apply more_to_next_parent|intros; apply more_const].
  Qed.

  (** *** Postorder: here the traversal enters any number of nodes in one call, so [U] must not depend on the number of calls *)
  Section Post.
    (** The stacks of iterators, and how many iterators they may still be asked to come to the end of. *)
    Variable W : nat -> list It -> list (list (tree Nd)) -> Prop.
    Hypothesis W_shape : forall m q2 q1, W m q2 q1 -> length q2 = length q1.
    Hypothesis W_nil : forall m, W m [] [].
    Hypothesis W_poll : forall m it q2 l q1, W (S m) (it :: q2) (l :: q1) ->
      match l with
      | [] => exists it', poll it = (None, it') /\ W m q2 q1
      | t :: l' => exists it', poll it = (Some (root t), it') /\ W (S m) (kids (root t) :: it' :: q2) (subs t :: l' :: q1)
      end.

    Definition Rposta (m : nat) (Y : list (option (list Nd))) (s1 : post_iter (tree Nd) Nd) (s2 : lpost Nd V It) : Prop :=
      Permutation (lt_log s2) (flat_map olast Y ++ tl (po_items s1)) /\
      lt_items s2 = map value (po_items s1) /\
      lt_root s2 = option_map (@root Nd) (po_root s1) /\
      match po_root s1 with
      | Some t => po_items s1 = [] /\ W m (kids (root t) :: lt_stack s2) (subs t :: po_stack s1)
      | None => W m (lt_stack s2) (po_stack s1)
      end.

    Lemma posta_loop F m : forall q1 q2 its its' r1 log, W (S m) q2 q1 -> loop (posta_body tree_gvc) F (its, q1) = Ok (its', r1) ->
      exists r2 new, loop (lposta_body gv into_iter poll) F (log, map value its, q2) = Ok (new ++ log, map value its', r2) /\ W m r2 r1 /\
        its' = new ++ its.
    Proof.
      induction F as [|F IH]; intros q1 q2 its its' r1 log HU; [discriminate|]; cbn [loop]; unfold posta_body at 1, lposta_body at 1.
      destruct q2 as [|it q2], q1 as [|l q1]; try discriminate (W_shape _ _ _ HU); [intros [= <- <-]; exists [], []; repeat split; apply W_nil|].
      apply W_poll in HU; destruct l as [|t l].
      - destruct HU as (it' & -> & HU); intros [= <- <-]; exists q2, []; auto.
      - destruct HU as (it' & -> & HU); destruct t as [n ts]; cbn [root subs tree_gvc] in *; rewrite (gv_eq gv n).
        intros E; destruct (IH _ (kids n :: it' :: q2) _ _ _ (n :: log) HU E) as (r2 & new & E2 & H & Hi).
        exists r2, (new ++ [n]); split; [|split; [exact H|rewrite <- app_assoc; exact Hi]].
        rewrite <- app_assoc; exact E2.
    Qed.

    Lemma posta_follow F m Y s1 s2 x s1' : Rposta (S m) Y s1 s2 -> posta_next tree_gvc F s1 = Ok (x, s1') ->
      exists s2', lposta_next gv into_iter poll F s2 = Ok (option_map (map value) x, s2') /\ Rposta m (Y ++ [x]) s1' s2'.
    Proof.
      intros (Hlog & Hi & Hr & Hq); unfold posta_next, lposta_next, posta_advance, lposta_advance, posta_get; rewrite Hr, Hi.
      assert (Hend : forall its q1 q2 log (s1' : post_iter (tree Nd) Nd), W (S m) q2 q1 -> Permutation log (flat_map olast Y ++ its) ->
        ('(items, stack) <- loop (posta_body tree_gvc) F (its, q1) ;; Ok (mkPost None items stack)) = Ok s1' ->
        exists s2', ('(log, items, stack) <- loop (lposta_body gv into_iter poll) F (log, map value its, q2) ;; Ok (mkLpost log None items stack)) = Ok s2' /\
          lt_items s2' = map value (po_items s1') /\
          Rposta m (Y ++ [match po_items s1' with [] => None | items => Some (rev items) end]) s1' s2').
      { clear Hlog Hq Hi Hr s1'; intros its q1 q2 log s1' HU HP.
        destruct (loop (posta_body tree_gvc) F (its, q1)) as [[its' r1]| | |] eqn:E; try discriminate; cbn [bindR]; intros [= <-].
        destruct (posta_loop F m q1 q2 its its' r1 log HU E) as (r2 & new & -> & H1 & H2); cbn [bindR]; eexists; split; [reflexivity|].
        cbn [lt_items po_items]; split; [reflexivity|]; repeat split; cbn [lt_log lt_stack lt_items lt_root po_items po_stack po_root]; [|exact H1].
        rewrite HP, flat_map_app; cbn [flat_map]; rewrite app_nil_r, <- app_assoc.
        rewrite Permutation_app_swap_app; apply Permutation_app_head; rewrite <- H2.
        destruct its' as [|a its']; [constructor|]; unfold olast; rewrite rev_involutive; cbn; apply Permutation_refl. }
      destruct (po_root s1) as [[n ts]|] eqn:Er; cbn [option_map root tree_gvc].
      - destruct Hq as [Hi0 Hq]; cbn [root subs] in Hq; rewrite (gv_eq gv n), Hi0 in *; cbn [map tl] in *.
        destruct (('(items, stack) <- loop (posta_body tree_gvc) F ([n], ts :: po_stack s1) ;; Ok (mkPost None items stack))) as [s1''| | |] eqn:E; try discriminate.
        cbn [bindR]; intros [= <- <-].
        destruct (Hend [n] (ts :: po_stack s1) (kids n :: lt_stack s2) (n :: lt_log s2) s1'' Hq) as (s2' & E2 & Hi2 & HR2); [|exact E|].
        + rewrite app_nil_r in Hlog; rewrite Hlog; apply Permutation_cons_append.
        + exists s2'; cbn [map] in E2; rewrite E2; cbn [bindR]; split; [|exact HR2].
          rewrite Hi2; destruct (po_items s1''); cbn [map option_map]; [reflexivity|rewrite map_app, map_rev; reflexivity].
      - destruct (('(items, stack) <- loop (posta_body tree_gvc) F (tl (po_items s1), po_stack s1) ;; Ok (mkPost None items stack))) as [s1''| | |] eqn:E; try discriminate.
        cbn [bindR]; intros [= <- <-].
        destruct (Hend (tl (po_items s1)) (po_stack s1) (lt_stack s2) (lt_log s2) _ Hq Hlog E) as (s2' & E2 & Hi2 & HR2).
        exists s2'; replace (tl (map value (po_items s1))) with (map value (tl (po_items s1))) by (destruct (po_items s1); reflexivity).
        rewrite E2; cbn [bindR]; split; [|exact HR2].
        rewrite Hi2; destruct (po_items s1''); cbn [map option_map]; [reflexivity|rewrite map_app, map_rev; reflexivity].
    Qed.

    (** The plain iterator has popped the item that it returns. *)
    Definition Rpost (m : nat) (Y : list (option (list Nd))) (s1 : post_iter (tree Nd) Nd) (s2 : lpost Nd V It) : Prop :=
      Permutation (lt_log s2) (flat_map olast Y ++ tl (po_items s1)) /\
      lt_items s2 = map value (tl (po_items s1)) /\
      lt_root s2 = option_map (@root Nd) (po_root s1) /\
      match po_root s1 with
      | Some t => po_items s1 = [] /\ W m (kids (root t) :: lt_stack s2) (subs t :: po_stack s1)
      | None => W m (lt_stack s2) (po_stack s1)
      end.

    Lemma post_loop F m : forall q1 q2 its its' r1 log, W (S m) q2 q1 -> loop (posta_body tree_gvc) F (its, q1) = Ok (its', r1) ->
      exists r2 new, loop (lpost_body gv into_iter poll) F (mkLpost log None (map value its) q2) =
          Ok (hd_error (map value its'), mkLpost (new ++ log) None (tl (map value its')) r2) /\ W m r2 r1 /\
        its' = new ++ its.
    Proof.
      induction F as [|F IH]; intros q1 q2 its its' r1 log HU; [discriminate|]; cbn [loop]; unfold posta_body at 1, lpost_body at 1.
      cbn [lt_root lt_stack lt_items lt_log].
      destruct q2 as [|it q2], q1 as [|l q1]; try discriminate (W_shape _ _ _ HU); [intros [= <- <-]; exists [], []; repeat split; apply W_nil|].
      apply W_poll in HU; destruct l as [|t l].
      - destruct HU as (it' & -> & HU); intros [= <- <-]; exists q2, []; auto.
      - destruct HU as (it' & -> & HU); destruct t as [n ts]; cbn [root subs tree_gvc] in *; rewrite (gv_eq gv n).
        intros E; destruct (IH _ (kids n :: it' :: q2) _ _ _ (n :: log) HU E) as (r2 & new & E2 & H & Hi).
        exists r2, (new ++ [n]); split; [|split; [exact H|rewrite <- app_assoc; exact Hi]].
        rewrite <- app_assoc; exact E2.
    Qed.

    Lemma post_follow F m Y s1 s2 x s1' : Rpost (S m) Y s1 s2 -> posta_next tree_gvc F s1 = Ok (x, s1') ->
      exists s2', lpost_next gv into_iter poll (S F) s2 = Ok (hd_error (map value (olast x)), s2') /\ Rpost m (Y ++ [x]) s1' s2'.
    Proof.
      intros (Hlog & Hi & Hr & Hq); unfold posta_next, lpost_next, posta_advance, posta_get.
      assert (Hend : forall F' its q1 q2 log (s1' : post_iter (tree Nd) Nd), F <= F' -> W (S m) q2 q1 -> Permutation log (flat_map olast Y ++ its) ->
        ('(items, stack) <- loop (posta_body tree_gvc) F (its, q1) ;; Ok (mkPost None items stack)) = Ok s1' ->
        exists s2', loop (lpost_body gv into_iter poll) F' (mkLpost log None (map value its) q2) =
            Ok (hd_error (map value (olast (match po_items s1' with [] => None | items => Some (rev items) end))), s2') /\
          Rpost m (Y ++ [match po_items s1' with [] => None | items => Some (rev items) end]) s1' s2').
      { clear Hlog Hq Hi Hr s1'; intros F' its q1 q2 log s1' HF HU HP.
        destruct (loop (posta_body tree_gvc) F (its, q1)) as [[its' r1]| | |] eqn:E; try discriminate; cbn [bindR]; intros [= <-].
        destruct (post_loop F m q1 q2 its its' r1 log HU E) as (r2 & new & E2 & H1 & H2).
        assert (Hm : more (fun f => loop (lpost_body gv into_iter poll) f (mkLpost log None (map value its) q2))) by more_tac.
        rewrite (Hm F F' HF) by (rewrite E2; discriminate); rewrite E2.
        eexists; cbn [po_items]; split; [destruct its' as [|a its']; [reflexivity|]; cbn [olast]; rewrite rev_involutive; reflexivity|].
        repeat split; cbn [lt_log lt_stack lt_items lt_root po_items po_stack po_root]; [|destruct its'; reflexivity|exact H1].
        rewrite HP, flat_map_app; cbn [flat_map]; rewrite app_nil_r, <- app_assoc.
        rewrite Permutation_app_swap_app; apply Permutation_app_head; rewrite <- H2.
        destruct its' as [|a its']; [constructor|]; unfold olast; rewrite rev_involutive; cbn; apply Permutation_refl. }
      destruct (po_root s1) as [[n ts]|] eqn:Er; cbn [option_map root tree_gvc].
      - destruct Hq as [Hi0 Hq]; cbn [root subs] in Hq; rewrite Hi0 in *; cbn [map tl] in *.
        destruct (('(items, stack) <- loop (posta_body tree_gvc) F ([n], ts :: po_stack s1) ;; Ok (mkPost None items stack))) as [s1''| | |] eqn:E; try discriminate.
        cbn [bindR]; intros [= <- <-].
        cbn [loop]; unfold lpost_body at 1; rewrite Hr, Hi; cbn [option_map root]; rewrite (gv_eq gv n).
        apply (Hend F [n] (ts :: po_stack s1) (kids n :: lt_stack s2) (n :: lt_log s2) s1'' (le_n F) Hq); [|exact E].
        rewrite app_nil_r in Hlog; rewrite Hlog; apply Permutation_cons_append.
      - destruct (('(items, stack) <- loop (posta_body tree_gvc) F (tl (po_items s1), po_stack s1) ;; Ok (mkPost None items stack))) as [s1''| | |] eqn:E; try discriminate.
        cbn [bindR]; intros [= <- <-].
        destruct s2 as [log2 root2 items2 stack2]; cbn [lt_log lt_root lt_items lt_stack option_map] in *; subst root2 items2.
        exact (Hend (S F) (tl (po_items s1)) (po_stack s1) stack2 log2 s1'' ltac:(lia) Hq Hlog E).
    Qed.
    Lemma more_lpost s : more (fun f => lpost_next gv into_iter poll f s).
    Proof. unfold lpost_next; more_tac. Qed.
    Lemma more_lposta s : more (fun f => lposta_next gv into_iter poll f s).
    Proof. unfold lposta_next, lposta_advance; more_tac. Qed.
  End Post.
End Plain.
