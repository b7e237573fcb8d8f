(** * [leaves()] over trees made as they are traversed: the order of the leaves, and calls that never come back. *)
From Verif Require Import Prelim PrelimFacts Spec SpecFacts SpecObs SpecLazy SpecLazyLeaves ModelNode NodeFacts ModelPre ModelPost ModelBfs ModelLazy ModelLazyLeaves FuelMono.
From Verif Require Import ProofsLazy ProofsLazyInst ProofsLazyRun ProofsLazyDeep ProofsLazyLeaves ProofsLazyLeavesBfs.

Section Order.
  Context {Nd V C It : Type}.
  Variable gv : Nd -> V * C.
  Variable into_iter : C -> It.
  Variable poll : It -> option Nd * It.
  Local Notation childless := (childless gv into_iter poll).
  Local Notation leafp := (fun p : pos Nd => childless (pos_here p)).

  (** Nodes with children are not leaves. *)
  Inductive inner_ok : tree Nd -> Prop :=
  | inner_ok_node n ts : (ts <> [] -> childless n = false) -> Forall inner_ok ts -> inner_ok (TNode n ts).

  Lemma pre_post_leaves : forall t path above, inner_ok t ->
    filter leafp (postorder (annotate path above t)) = filter leafp (preorder (annotate path above t)).
  Proof.
    fix IH 1; intros [n ts] path above Hi; inversion Hi as [n' ts' Hn Hts E]; subst n' ts'; clear Hi.
    cbn [annotate postorder preorder filter]; rewrite filter_app; cbn [filter pos_here].
    destruct ts as [|t ts]; [reflexivity|]; rewrite (Hn ltac:(discriminate)), app_nil_r; clear Hn.
    generalize 0; revert Hts; generalize (t :: ts); clear t ts; fix IHl 1; intros [|t ts] Hts i; [reflexivity|].
    inversion Hts as [|t' ts' Ht Hts' E]; subst t' ts'; cbn [mapi flat_map]; rewrite !filter_app; f_equal; [apply IH, Ht|exact (IHl ts Hts' (S i))].
  Qed.

  Lemma inner_cut b : forall d n, inner_ok (cut gv into_iter poll d b n).
  Proof.
    induction d as [|d IH]; intros n; cbn [cut]; constructor; [congruence|constructor| |].
    - intros H; destruct b as [|b]; [contradiction H; reflexivity|]; unfold SpecLazyLeaves.childless; cbn [first_items] in H.
      destruct (poll (into_iter (snd (gv n)))) as [[c|] it']; [reflexivity|contradiction H; reflexivity].
    - apply Forall_map, Forall_forall; intros; apply IH.
  Qed.

  Lemma inner_whole : forall t n, whole gv into_iter poll n t -> inner_ok t.
  Proof.
    fix IH 1; intros [m ts] n Hw; inversion Hw as [n' ts' H E1 E2]; subst; constructor.
    - intros Hne; unfold SpecLazyLeaves.childless; inversion H as [it it' Ep|it c it' t' ts' Ep Hc Hcs]; subst; [contradiction Hne; reflexivity|]; rewrite Ep; reflexivity.
    - clear Hw; revert H; generalize (into_iter (snd (gv m))); revert ts; fix IHl 1; intros [|t ts] it H; [constructor|].
      inversion H as [|it0 c it' t' ts' Ep Hc Hcs]; subst; constructor; [exact (IH t c Hc)|exact (IHl ts it' Hcs)].
  Qed.
End Order.

Section Endless.
  Context {Nd V C It : Type}.
  Variable gv : Nd -> V * C.
  Variable into_iter : C -> It.
  Variable poll : It -> option Nd * It.
  Local Notation childless := (childless gv into_iter poll).
  Local Notation cut := (cut gv into_iter poll).

  Section Path.
    Variable path : nat -> Nd.
    Hypothesis Hp : forall i, fst (poll (into_iter (nkids gv (path i)))) = Some (path (S i)).

    Lemma endless_ldl_loop F : forall i b log r bot items rest, loop (ldl_body gv into_iter poll) F (b, mkLdl log r bot (into_iter (nkids gv (path i)) :: rest) items) = OutOfFuel.
    Proof.
      induction F as [|F IH]; intros i b log r bot items rest; [reflexivity|]; cbn [loop]; unfold ldl_body at 1; cbn [ldl_top].
      specialize (Hp i) as E; destruct (poll (into_iter (nkids gv (path i)))) as [x it']; cbn [fst] in E; subst x.
      rewrite (gv_eq gv (path (S i))); apply IH.
    Qed.
    Lemma endless_ldl F log : ldl_next gv into_iter poll F (mkLdl log (Some (path 0)) [] [] []) = OutOfFuel.
    Proof. unfold ldl_next; cbn [ldl_root]; rewrite (gv_eq gv (path 0)); apply endless_ldl_loop. Qed.

    Lemma endless_ldal_loop F : forall i b log r items old rest, loop (ldal_body gv into_iter poll) F (b, mkLdal log r items old (into_iter (nkids gv (path i)) :: rest)) = OutOfFuel.
    Proof.
      induction F as [|F IH]; intros i b log r items old rest; [reflexivity|]; cbn [loop]; unfold ldal_body at 1; cbn [lda_new].
      specialize (Hp i) as E; destruct (poll (into_iter (nkids gv (path i)))) as [x it']; cbn [fst] in E; subst x.
      rewrite (gv_eq gv (path (S i))); apply IH.
    Qed.
    Lemma endless_ldal F log : ldal_next gv into_iter poll F (mkLdal log (Some (path 0)) [] [] []) = OutOfFuel.
    Proof. unfold ldal_next, ldal_advance; cbn [lda_root]; rewrite (gv_eq gv (path 0)), endless_ldal_loop; reflexivity. Qed.
  End Path.

  (** A tree without leaves goes down for ever. *)
  Lemma no_leaf_first n : no_leaf gv into_iter poll n -> exists c it', poll (into_iter (snd (gv n))) = (Some c, it') /\ no_leaf gv into_iter poll c.
  Proof.
    intros H; assert (Hn : childless n = false) by (apply (H 0 0); left; reflexivity).
    unfold SpecLazyLeaves.childless in Hn; destruct (poll (into_iter (snd (gv n)))) as [[c|] it'] eqn:Ep; [|discriminate]; exists c, it'; split; [reflexivity|].
    assert (G : forall d b m, In m (preorder (cut d (S b) c)) -> childless m = false).
    { intros d b m Hm; apply (H (S d) (S b)); cbn [SpecLazy.cut first_items]; rewrite Ep; cbn [map preorder flat_map]; right; apply in_or_app; left; exact Hm. }
    intros d [|b] m Hm; [|exact (G _ _ _ Hm)].
    assert (Hc : m = c) by (destruct d; cbn in Hm; destruct Hm as [<-|[]]; reflexivity).
    subst m; apply (G 0 0); left; reflexivity.
  Qed.
  Lemma no_leaf_size b : forall d n, no_leaf gv into_iter poll n -> d < length (preorder (cut d (S b) n)).
  Proof.
    induction d as [|d IH]; intros n H; [cbn; lia|].
    destruct (no_leaf_first n H) as (c & it' & Ep & Hc); cbn [SpecLazy.cut first_items]; rewrite Ep; cbn [map preorder flat_map length]; rewrite app_length.
    specialize (IH c Hc); lia.
  Qed.

  Lemma more_lbl_body s : more (fun f => lbl_body gv into_iter poll f s).
  Proof.
    unfold lbl_body; apply more_bind; [apply more_lbl_bfs|]; intros [y s']; apply more_const.
  Qed.
  Lemma more_to_next_parent (s : dfs_st (V:=V)) : more (fun f => to_next_parent f s).
  Proof.
    unfold to_next_parent; destruct s as [[items cache] stack].
    destruct (match top_children stack cache with [] => _ | _ :: _ => _ end) as [[items' cache'] stack'].
    unfold advance_dfs; apply more_loop; intros s f g _ _; reflexivity.
  Qed.
  Lemma more_lbal_body s : more (fun f => lbal_body gv into_iter poll f s).
  Proof.
    unfold lbal_body; destruct (lbal_queue s) as [|p q]; [apply more_const|].
    destruct (maybe_pop _) as [[[items cache] stack]| | |]; cbn [bindR]; try apply more_const.
    destruct (pk_next poll p) as [[x|] it]; [apply more_const|]; destruct (lbal_is_root s); [apply more_const|].
    apply (more_bind (fun f => to_next_parent f _) (fun _ x => let '(items, cache, stack) := x in Ok (inl (mkLbal (lbal_log s) false items cache stack q))));
      [apply more_to_next_parent|intros [[i' c'] s']; apply more_const].
  Qed.

  Section NoLeaf.
    Variable n : Nd.
    Hypothesis Hno : no_leaf gv into_iter poll n.
    Variable j : nat.
    Let t := cut (S j) (S j) n.
    Let B := bfs t.
    Lemma B_len : j < length B.
    Proof. unfold B, t; rewrite (Permutation.Permutation_length (bfs_perm _)); pose proof (no_leaf_size j (S j) n Hno); lia. Qed.
    Lemma B_leaf x : In x B -> childless x = false.
    Proof. intros Hx; apply (Hno (S j) (S j)); apply (Permutation.Permutation_in _ (bfs_perm _)); exact Hx. Qed.

    Lemma lbl_turns : exists s', turns (lbl_body gv into_iter poll) j (lbfs_leaves (lbfs_new n)) s'.
    Proof.
      assert (Hrun : forall k, k <= j -> exists s, calls (lbfs_next gv into_iter poll) k (lbfs_new n) ⇓ Ok (map (nth_error (map (nval gv) B)) (seq 0 k), s) /\ rev (lb_log s) = firstn k B).
      { intros k Hk; pose proof (upto_cut gv into_iter poll k (S j) (S j) n ltac:(lia) ltac:(lia)) as Hu; pose proof (root_cut gv into_iter poll (S j) (S j) n) as Hr.
        destruct (run_bfs gv into_iter poll _ (uptos_le _ _ _) (uptos_poll _ _ _) _ k Hu) as (s & H & H'); rewrite Hr in H; eauto. }
      assert (G : forall i, i <= j -> exists s1 s2, Stb gv into_iter poll n j i s1 /\ Rlbl poll s2 s1 /\ turns (lbl_body gv into_iter poll) i (lbfs_leaves (lbfs_new n)) s2).
      { induction i as [|i IH]; intros Hi.
        - exists (lbfs_new n), (lbfs_leaves (lbfs_new n)); repeat split; try lia.
          + exists []; apply calls_0.
          + exists []; split; [reflexivity|constructor].
        - destruct (IH ltac:(lia)) as (s1 & s2 & HS & HR & Ht); pose proof B_len as HB.
          destruct (Stb_step gv into_iter poll n B j Hrun i s1 ltac:(lia) ltac:(lia) HS) as (s1' & H1 & HS'); specialize (HS' ltac:(lia)).
          destruct (nth_error B i) as [x|] eqn:Ex; [|apply nth_error_None in Ex; lia].
          rewrite nth_error_map, Ex in H1; cbn [option_map] in H1.
          destruct (lbl_hstep gv into_iter poll n B j Hrun i s1 s2 s1' x HS Ex H1 HS' HR) as (s2' & HR' & Ht').
          rewrite (B_leaf x (nth_error_In _ _ Ex)) in Ht'.
          exists s1', s2'; split; [exact HS'|split; [exact HR'|]]; replace (S i) with (i + 1) by lia; exact (turns_app _ _ _ _ _ _ Ht Ht'). }
      destruct (G j ltac:(lia)) as (_ & s2 & _ & _ & Ht); eauto.
    Qed.

    Lemma lbal_turns : exists c s', j <= c /\ turns (lbal_body gv into_iter poll) c (lbfsa_leaves (lbfsa_new gv into_iter n)) s'.
    Proof.
      pose (Q := bfs (positions t)).
      assert (HQ : map pos_here Q = B) by apply (here_positions (@bfs) orderly_bfs).
      assert (HQl : length Q = length B) by (rewrite <- HQ, map_length; reflexivity).
      assert (Htw : none_twice gv into_iter poll n) by (intros H; rewrite (Hno 0 0 n (or_introl eq_refl)) in H; discriminate).
      assert (Hrun : forall k, k <= S j -> k <= S (length Q) -> exists s, calls (lbfsa_next gv into_iter poll) k (lbfsa_new gv into_iter n) ⇓ Ok (map (nth_error (map (ancestors_at gv) Q)) (seq 0 k), s) /\ rev (lba_log s) = map pos_here (firstn (Nat.max 1 k) Q)).
      { intros k Hk Hk'; pose proof (upto_cut gv into_iter poll k (S j) (S j) n ltac:(lia) ltac:(lia)) as Hu; pose proof (root_cut gv into_iter poll (S j) (S j) n) as Hr.
        fold t in Hu, Hr.
        destruct (run_bfsa gv into_iter poll _ (uptos_le _ _ _) (uptos_poll _ _ _) _ k Hu ltac:(fold B; lia)) as (s & H & H'); rewrite Hr in H.
        exists s; split; [exact H|]; rewrite H', <- firstn_map, HQ; reflexivity. }
      assert (G : forall i, i <= S j -> exists c s1 s2, Sta gv into_iter poll n Q (S j) i s1 /\ Ra gv into_iter poll n s2 s1 /\ i <= S c /\ turns (lbal_body gv into_iter poll) c (lbfsa_leaves (lbfsa_new gv into_iter n)) s2).
      { induction i as [|i IH]; intros Hi.
        - exists 0, (lbfsa_new gv into_iter n), (lbfsa_leaves (lbfsa_new gv into_iter n)); split; [|split; [|split; [lia|reflexivity]]].
          + repeat split; try lia; exists []; apply calls_0.
          + right; left; split; reflexivity.
        - destruct (IH ltac:(lia)) as (c & s1 & s2 & HS & HR & Hc & Ht); pose proof B_len as HB.
          destruct (Sta_step gv into_iter poll n Q (S j) Hrun i s1 ltac:(lia) ltac:(lia) HS) as (s1' & H1 & HS'); specialize (HS' ltac:(lia)).
          destruct (nth_error Q i) as [x|] eqn:Ex; [|apply nth_error_None in Ex; lia].
          rewrite nth_error_map, Ex in H1; cbn [option_map] in H1.
          destruct (lbal_hstep gv into_iter poll n Q (S j) Htw Hrun i s1 s2 s1' x HS Ex H1 HS' HR) as (s2' & HR' & Ht').
          assert (Hx : In (pos_here x) B) by (rewrite <- HQ; apply in_map, (nth_error_In _ _ Ex)).
          cbv beta in Ht'; unfold ProofsLazyLeaves.leafp in Ht'; rewrite (B_leaf _ Hx) in Ht'; destruct Ht' as (c' & Ht' & Hc').
          exists (c + c'), s1', s2'; split; [exact HS'|split; [exact HR'|split; [|exact (turns_app _ _ _ _ _ _ Ht Ht')]]].
          destruct i as [|i]; [lia|]; specialize (Hc' ltac:(lia)); lia. }
      destruct (G (S j) ltac:(lia)) as (c & _ & s2 & _ & _ & Hc & Ht); exists c, s2; split; [lia|exact Ht].
    Qed.
  End NoLeaf.

  Lemma endless_lbl n F : no_leaf gv into_iter poll n -> lbl_next gv into_iter poll F (lbfs_leaves (lbfs_new n)) = OutOfFuel.
  Proof. intros H; destruct (lbl_turns n H F) as (s' & Ht); exact (turns_fuel _ more_lbl_body F F _ _ Ht (le_n _)). Qed.
  Lemma endless_lbal n F : no_leaf gv into_iter poll n -> lbal_next gv into_iter poll F (lbfsa_leaves (lbfsa_new gv into_iter n)) = OutOfFuel.
  Proof. intros H; destruct (lbal_turns n H F) as (c & s' & Hc & Ht); unfold lbal_next, lbal_advance; rewrite (turns_fuel _ more_lbal_body F c _ _ Ht Hc); reflexivity. Qed.
End Endless.

(** ** Runs of the breadth first iterators *)
Section Runs.
  Context {Nd V C It : Type}.
  Variable gv : Nd -> V * C.
  Variable into_iter : C -> It.
  Variable poll : It -> option Nd * It.
  Local Notation childless := (childless gv into_iter poll).
  Local Notation leafp := (leafp gv into_iter poll).
  Local Notation cut := (cut gv into_iter poll).

  Lemma bfs_here (t : tree Nd) : map pos_here (bfs (positions t)) = bfs t.
  Proof. apply (here_positions (@bfs) orderly_bfs). Qed.
  Lemma bfs_pos (t : tree Nd) : 0 < length (bfs t).
  Proof. rewrite (Permutation.Permutation_length (bfs_perm _)); destruct t; cbn; lia. Qed.
  Lemma bfs_len (t : tree Nd) : length (bfs (positions t)) = length (bfs t).
  Proof. rewrite <- (bfs_here t), map_length; reflexivity. Qed.

  Definition plain_good (k i : nat) (B : list Nd) (s1 : lbfs Nd It) : Prop :=
    exists s, calls (lbl_next gv into_iter poll) k (lbfs_leaves s1) ⇓ Ok (map (nth_error (map (nval gv) (filter childless (skipn i B)))) (seq 0 k), s) /\
      (k = 0 -> lbl_log s = lb_log s1) /\
      (forall p x, i <= p -> nth_error B p = Some x -> childless x = true -> length (filter childless (skipn i (firstn (S p) B))) = k -> rev (lbl_log s) = firstn (S p) B) /\
      (length (filter childless (skipn i B)) < k -> rev (lbl_log s) = B).
  Definition anc_good (k i : nat) (Q : list (pos Nd)) (s1 : lbfsa Nd V It) : Prop :=
    exists s, calls (lbal_next gv into_iter poll) k (lbfsa_leaves s1) ⇓ Ok (map (nth_error (map (ancestors_at gv) (filter leafp (skipn i Q)))) (seq 0 k), s) /\
      (k = 0 -> lbal_log s = lba_log s1) /\
      (forall p x, i <= p -> nth_error Q p = Some x -> leafp x = true -> length (filter leafp (skipn i (firstn (S p) Q))) = k -> rev (lbal_log s) = map pos_here (firstn (S p) Q)) /\
      (length (filter leafp (skipn i Q)) < k -> rev (lbal_log s) = map pos_here Q).

  Lemma cut_plain n k i j d b s : i <= j -> j <= d -> j <= b -> i <= length (bfs (cut d b n)) ->
    k <= length (filter childless (skipn i (firstn j (bfs (cut d b n))))) -> after (lbfs_next gv into_iter poll) i (lbfs_new n) s ->
    plain_good k i (bfs (cut d b n)) s.
  Proof.
    intros Hij Hd Hb Hi Hk Ha; apply (lbl_sieve gv into_iter poll n _ j); auto using bfs_pos; [|split; assumption].
    intros m Hm; pose proof (upto_cut gv into_iter poll m d b n ltac:(lia) ltac:(lia)) as Hu; pose proof (root_cut gv into_iter poll d b n) as Hr.
    pose proof (run_bfs gv into_iter poll _ (uptos_le _ _ _) (uptos_poll _ _ _) _ m Hu) as H; rewrite Hr in H; exact H.
  Qed.
  Lemma cut_anc n k i j d b s : i <= j -> j <= d -> j <= b -> i <= length (bfs (cut d b n)) -> none_twice gv into_iter poll n ->
    k <= length (filter leafp (skipn i (firstn j (bfs (positions (cut d b n)))))) -> after (lbfsa_next gv into_iter poll) i (lbfsa_new gv into_iter n) s ->
    anc_good k i (bfs (positions (cut d b n))) s.
  Proof.
    intros Hij Hd Hb Hi Ht Hk Ha; pose proof (bfs_len (cut d b n)) as HL; pose proof (bfs_pos (cut d b n)) as HP.
    apply (lbal_sieve gv into_iter poll n _ j); auto; [| |split; [exact Ha|]|]; try lia.
    intros m Hm Hm'; pose proof (upto_cut gv into_iter poll m d b n ltac:(lia) ltac:(lia)) as Hu; pose proof (root_cut gv into_iter poll d b n) as Hr.
    pose proof (run_bfsa gv into_iter poll _ (uptos_le _ _ _) (uptos_poll _ _ _) _ m Hu ltac:(lia)) as H; rewrite Hr in H.
    rewrite <- firstn_map, bfs_here; exact H.
  Qed.

  Lemma whole_plain n t k i s : SpecLazy.whole gv into_iter poll n t -> i <= length (bfs t) -> after (lbfs_next gv into_iter poll) i (lbfs_new n) s ->
    plain_good k i (bfs t) s.
  Proof.
    intros Hw Hi Ha; destruct (whole_root gv into_iter poll n t Hw) as [Hr Hu]; subst n.
    apply (lbl_sieve gv into_iter poll (root t) _ (S (length (bfs t)))); auto using bfs_pos; [|split; [exact Ha|lia]].
    intros m _; apply (run_bfs gv into_iter poll (fun _ => wholes gv into_iter poll)); auto.
    intros ?; apply (wholes_poll gv into_iter poll).
  Qed.
  Lemma whole_anc n t k i s : SpecLazy.whole gv into_iter poll n t -> none_twice gv into_iter poll n -> i <= length (bfs t) ->
    after (lbfsa_next gv into_iter poll) i (lbfsa_new gv into_iter n) s -> anc_good k i (bfs (positions t)) s.
  Proof.
    intros Hw Ht Hi Ha; destruct (whole_root gv into_iter poll n t Hw) as [Hr Hu]; subst n; pose proof (bfs_len t) as HL; pose proof (bfs_pos t) as HP.
    apply (lbal_sieve gv into_iter poll (root t) _ (S (length (bfs t)))); auto; [| |split; [exact Ha|]| |]; try lia.
    intros m _ Hm; destruct (run_bfsa gv into_iter poll (fun _ => wholes gv into_iter poll)) with (t := t) (k := m) as (s' & H & H'); auto; try lia.
    - intros ?; apply (wholes_poll gv into_iter poll).
    - exists s'; rewrite <- firstn_map, bfs_here; auto.
  Qed.
End Runs.
