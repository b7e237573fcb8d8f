(** * C59: [leaves()] over trees that are made while they are traversed

    Nodes, children iterators, [cut], [whole], [uncut] and [entered] are those of C51 and C52 (SpecLazy): nothing is assumed about the children iterators.
    [childless n] says that the first answer of the children iterator of [n] is [None] (SpecLazyLeaves). *)
From Coq Require Import Permutation.
From Verif Require Import Prelim PrelimFacts Spec SpecObs SpecLazy SpecLazyLeaves ModelNode ModelPre ModelPost ModelBfs ModelLazy ModelLazyLeaves.
From Verif Require SpecFacts NodeFacts PropLeaves.
From Verif Require Import ProofsTree ProofsLazy ProofsLazyInst ProofsLazyRun ProofsLazyDeep ProofsLazyLeaves ProofsLazyLeavesBfs ProofsLazyLeavesEnd ProofsLazyLeavesMid.

Section C59.
  Context {Nd V C It : Type}.
  Variable gv : Nd -> V * C.
  Variable into_iter : C -> It.
  Variable poll : It -> option Nd * It.
  Local Notation cut := (cut gv into_iter poll).
  Local Notation whole := (whole gv into_iter poll).
  Local Notation childless := (childless gv into_iter poll).
  Local Notation leaf p := (childless (pos_here p)).
  Local Notation answers k l := (map (nth_error l) (seq 0 k)).

  Lemma after_run {S O} (next : nat -> S -> Res (O * S)) k s0 s (P : S -> Prop) os : after next k s0 s ->
    (exists s', calls next k s0 ⇓ Ok (os, s') /\ P s') -> P s.
  Proof. intros [os' H] (s' & H' & HP); pose proof (conv_fun _ _ _ H H') as E; injection E as _ <-; exact HP. Qed.

  Lemma filter_map_len {A B} (f : B -> bool) (g : A -> B) l : length (filter f (map g l)) = length (filter (fun x => f (g x)) l).
  Proof. induction l as [|x l IH]; [reflexivity|]; cbn [map filter]; destruct (f (g x)); cbn [length]; rewrite IH; reflexivity. Qed.
  Lemma filter_of_map {A B} (f : B -> bool) (g : A -> B) l : filter f (map g l) = map g (filter (fun x => f (g x)) l).
  Proof. induction l as [|x l IH]; [reflexivity|]; cbn [map filter]; destruct (f (g x)); cbn [map]; rewrite IH; reflexivity. Qed.
  Lemma filter_perm {A} (f : A -> bool) l l' : Permutation l l' -> Permutation (filter f l) (filter f l').
  Proof.
    induction 1 as [|x l l' H IH|x y l|l l' l'' H1 IH1 H2 IH2]; cbn [filter]; auto.
    - destruct (f x); auto.
    - destruct (f x), (f y); auto using perm_swap.
    - rewrite IH1; exact IH2.
  Qed.
  Lemma leaf_count_eq i j (t : tree Nd) :
    length (filter (fun p => leaf p) (skipn i (firstn j (bfs (positions t))))) = length (filter childless (skipn i (firstn j (bfs t)))).
  Proof. rewrite <- (bfs_here t), firstn_map, skipn_map, filter_map_len; reflexivity. Qed.
  Lemma whole_ldl n t k : whole n t -> exists s, calls (ldl_next gv into_iter poll) k (mkLdl [] (Some n) [] [] []) ⇓
    Ok (answers k (map (fun p => nval gv (pos_here p)) (filter (leafp gv into_iter poll) (postorder (positions t)))), s) /\ log_ok gv into_iter poll t k (ldl_log s).
  Proof.
    intros Hw; destruct (whole_root gv into_iter poll n t Hw) as [Hr Hu]; subst n.
    apply (run_ldl gv into_iter poll _ (Wwhole_shape gv into_iter poll) (Wwhole_nil gv into_iter poll) (Wwhole_poll gv into_iter poll) t (length (postorder (positions t))) k); [|right; apply le_n].
    exact (Forall2_cons (R := wholes gv into_iter poll) _ _ Hu (Forall2_nil _)).
  Qed.
  Lemma whole_ldal n t k : whole n t -> exists s, calls (ldal_next gv into_iter poll) k (mkLdal [] (Some n) [] [] []) ⇓
    Ok (answers k (map (ancestors_at gv) (filter (leafp gv into_iter poll) (postorder (positions t)))), s) /\ log_ok gv into_iter poll t k (lda_log s).
  Proof.
    intros Hw; destruct (whole_root gv into_iter poll n t Hw) as [Hr Hu]; subst n.
    apply (run_ldal gv into_iter poll _ (Wwhole_shape gv into_iter poll) (Wwhole_nil gv into_iter poll) (Wwhole_poll gv into_iter poll) t (length (postorder (positions t))) k); [|right; apply le_n].
    exact (Forall2_cons (R := wholes gv into_iter poll) _ _ Hu (Forall2_nil _)).
  Qed.

  (** C59.  Depth first: as soon as the tree is finite where the traversal looks, that is, the first [j] nodes in postorder of a finite cut have all their
      children in the cut, and [k] of them are leaves, the first [k] calls of [next()] come back and give the first [k] leaves from left to right,
      whether [leaves()] was called on a preorder or a postorder iterator, with ancestors or without.  What lies behind them need not be finite. *)
  Theorem C59_depth_first : forall (n : Nd) (k j d b : nat), Forall (uncut gv into_iter poll d b) (firstn j (postorder (positions (cut d b n)))) ->
    k <= length (filter (fun p => leaf p) (firstn j (postorder (positions (cut d b n))))) ->
    let leaves := filter (fun p => leaf p) (preorder (positions (cut d b n))) in
    (exists s, calls (ldl_next gv into_iter poll) k (lpre_leaves (lpre_new n)) ⇓ Ok (answers k (map (fun p => nval gv (pos_here p)) leaves), s)) /\
    (exists s, calls (ldl_next gv into_iter poll) k (lpost_leaves (lpost_new n)) ⇓ Ok (answers k (map (fun p => nval gv (pos_here p)) leaves), s)) /\
    (exists s, calls (ldal_next gv into_iter poll) k (lprea_leaves (lprea_new n)) ⇓ Ok (answers k (map (ancestors_at gv) leaves), s)) /\
    (exists s, calls (ldal_next gv into_iter poll) k (lposta_leaves (lpost_new n)) ⇓ Ok (answers k (map (ancestors_at gv) leaves), s)).
  Proof.
    intros n k j d b Hc Hk leaves; pose proof (deep_cut gv into_iter poll j d b n Hc) as Hw; pose proof (root_cut gv into_iter poll d b n) as Hr.
    rewrite <- Hr in Hw at 1.
    pose proof (Wdeep_shape gv into_iter poll) as Wsh; pose proof (Wdeep_nil gv into_iter poll) as Wn; pose proof (Wdeep_poll gv into_iter poll) as Wp.
    assert (El : leaves = filter (leafp gv into_iter poll) (postorder (positions (cut d b n)))) by (symmetry; apply (pre_post_leaves gv into_iter poll), inner_cut).
    destruct (run_ldl gv into_iter poll _ Wsh Wn Wp _ j k Hw (or_introl Hk)) as (s & H & _); rewrite Hr, <- El in H.
    destruct (run_ldal gv into_iter poll _ Wsh Wn Wp _ j k Hw (or_introl Hk)) as (s' & H' & _); rewrite Hr, <- El in H'.
    repeat split; eexists; [exact H|exact H|exact H'|exact H'].
  Qed.

  (** C59.  Breadth first: [leaves()] called after [i] calls of [next()] gives the leaves among the nodes not yet returned, level by level.  [k] leaves are given
      as soon as there are [k] of them among the first [j] nodes, whatever follows.  The iterator with ancestors needs that the children iterator of the root does not
      give children after a first [None] (see [C59_root_again_refuted]). *)
  Theorem C59_breadth_first : forall (n : Nd) (k i j d b : nat), i <= j -> j <= d -> j <= b ->
    i <= length (bfs (cut d b n)) -> k <= length (filter childless (skipn i (firstn j (bfs (cut d b n))))) ->
    (forall s, after (lbfs_next gv into_iter poll) i (lbfs_new n) s ->
     exists s', calls (lbl_next gv into_iter poll) k (lbfs_leaves s) ⇓ Ok (answers k (map (nval gv) (filter childless (skipn i (bfs (cut d b n))))), s')) /\
    (none_twice gv into_iter poll n ->
     forall s, after (lbfsa_next gv into_iter poll) i (lbfsa_new gv into_iter n) s ->
     exists s', calls (lbal_next gv into_iter poll) k (lbfsa_leaves s) ⇓
       Ok (answers k (map (ancestors_at gv) (filter (fun p => leaf p) (skipn i (bfs (positions (cut d b n)))))), s')).
  Proof.
    intros n k i j d b Hij Hd Hb Hi Hk; split.
    - intros s Ha; destruct (cut_plain gv into_iter poll n k i j d b s Hij Hd Hb Hi Hk Ha) as (s' & H & _); eauto.
    - intros Ht s Ha; rewrite <- leaf_count_eq in Hk; destruct (cut_anc gv into_iter poll n k i j d b s Hij Hd Hb Hi Ht Hk Ha) as (s' & H & _); eauto.
  Qed.

  (** C59.  When the tree is finite, every [leaves()] iterator gives all its leaves and then [None], although the children iterators may go on after their first [None]. *)
  Theorem C59_whole : forall (n : Nd) (t : tree Nd), whole n t ->
    let leaves := filter (fun p => leaf p) (preorder (positions t)) in
    yields (ldl_next gv into_iter poll) (lpre_leaves (lpre_new n)) (map (fun p => nval gv (pos_here p)) leaves) /\
    yields (ldl_next gv into_iter poll) (lpost_leaves (lpost_new n)) (map (fun p => nval gv (pos_here p)) leaves) /\
    yields (ldal_next gv into_iter poll) (lprea_leaves (lprea_new n)) (map (ancestors_at gv) leaves) /\
    yields (ldal_next gv into_iter poll) (lposta_leaves (lpost_new n)) (map (ancestors_at gv) leaves) /\
    (forall i s, i <= length (bfs t) -> after (lbfs_next gv into_iter poll) i (lbfs_new n) s ->
     yields (lbl_next gv into_iter poll) (lbfs_leaves s) (map (nval gv) (filter childless (skipn i (bfs t))))) /\
    (none_twice gv into_iter poll n ->
     forall i s, i <= length (bfs t) -> after (lbfsa_next gv into_iter poll) i (lbfsa_new gv into_iter n) s ->
     yields (lbal_next gv into_iter poll) (lbfsa_leaves s) (map (ancestors_at gv) (filter (fun p => leaf p) (skipn i (bfs (positions t)))))).
  Proof.
    intros n t Hw leaves.
    assert (El : leaves = filter (leafp gv into_iter poll) (postorder (positions t))) by (symmetry; apply (pre_post_leaves gv into_iter poll), (inner_whole gv into_iter poll t n Hw)).
    assert (H1 : yields (ldl_next gv into_iter poll) (mkLdl [] (Some n) [] [] []) (map (fun p => nval gv (pos_here p)) leaves)) by (intros k; rewrite El; destruct (whole_ldl n t k Hw) as (s & H & _); eauto).
    assert (H2 : yields (ldal_next gv into_iter poll) (mkLdal [] (Some n) [] [] []) (map (ancestors_at gv) leaves)) by (intros k; rewrite El; destruct (whole_ldal n t k Hw) as (s & H & _); eauto).
    split; [exact H1|split; [exact H1|split; [exact H2|split; [exact H2|split]]]].
    - intros i s Hi Ha k; destruct (whole_plain gv into_iter poll n t k i s Hw Hi Ha) as (s' & H & _); eauto.
    - intros Ht i s Hi Ha k; destruct (whole_anc gv into_iter poll n t k i s Hw Ht Hi Ha) as (s' & H & _); eauto.
  Qed.

  (** C59.  [leaves()] of a depth first iterator that has been advanced over a finite tree gives what it gives when the children are lists: the plain iterators lose the leaves whose
      parent has been entered (C18); with ancestors the slices end in the leaves not passed yet, each once, in some order (C21). *)
  Theorem C59_mid : forall (n : Nd) (t : tree Nd), whole n t ->
    (forall k s, after (lpre_next gv into_iter poll) k (lpre_new n) s -> let L := preorder (positions t) in
     yields (ldl_next gv into_iter poll) (lpre_leaves s)
       (map (fun p => nval gv (pos_here p)) (filter (fun p => leaf p && negb (parent_entered (firstn k L) p)) (skipn k L)))) /\
    (forall k s, after (lpost_next gv into_iter poll) k (lpost_new n) s -> let L := postorder (positions t) in
     yields (ldl_next gv into_iter poll) (lpost_leaves s)
       (map (fun p => nval gv (pos_here p)) (filter (fun p => leaf p && negb (parent_entered (firstn k L) p)) (skipn k L)))) /\
    (forall k s, after (lprea_next gv into_iter poll) k (lprea_new n) s ->
     exists K, forall j, K <= j -> exists os s', calls (ldal_next gv into_iter poll) j (lprea_leaves s) ⇓ Ok (os, s') /\
       Permutation (lasts os) (map (nval gv) (filter childless (skipn k (preorder t))))) /\
    (forall k s, after (lposta_next gv into_iter poll) k (lpost_new n) s ->
     exists K, forall j, K <= j -> exists os s', calls (ldal_next gv into_iter poll) j (lposta_leaves s) ⇓ Ok (os, s') /\
       Permutation (lasts os) (map (nval gv) (filter childless (skipn k (postorder t))))).
  Proof.
    intros n t Hw.
    assert (Hent : forall (o : forall X, tree X -> list X) (Ho : orderly o) k path, existsb (fun q => prefixb (removelast path) (pos_path q)) (firstn k (o _ (positions (subtrees t)))) =
      existsb (fun q => prefixb (removelast path) (pos_path q)) (firstn k (o _ (positions t)))).
    { intros o Ho k path; rewrite (positions_subtrees o Ho t), firstn_map; induction (firstn k _) as [|q l IH]; [reflexivity|]; cbn [map existsb]; rewrite IH; reflexivity. }
    assert (Hplain : forall (o : forall X, tree X -> list X) (Ho : orderly o) (Hp : forall X (u : tree X), Permutation (o X u) (preorder u)) k,
      map (nval gv) (map (fun p => nval tree_gvc (pos_here p)) (filter (fun p => is_leaf tree_gvc (pos_here p) && negb (parent_entered (firstn k (o _ (positions (subtrees t)))) p)) (skipn k (o _ (positions (subtrees t)))))) =
      map (fun p => nval gv (pos_here p)) (filter (fun p => leaf p && negb (parent_entered (firstn k (o _ (positions t))) p)) (skipn k (o _ (positions t))))).
    { intros o Ho Hp k; unfold parent_entered.
      pose proof (mid_filter gv into_iter poll n t Hw o Ho Hp (fun path => negb (existsb (fun q => prefixb (removelast path) (pos_path q)) (firstn k (o _ (positions t))))) k) as E.
      cbv beta in E; rewrite <- E; do 2 f_equal; apply filter_ext; intros p; rewrite (Hent o Ho); reflexivity. }
    assert (Hleaf : forall (o : forall X, tree X -> list X) (Ho : orderly o) (Hp : forall X (u : tree X), Permutation (o X u) (preorder u)) k,
      map (nval gv) (map (nval tree_gvc) (filter (is_leaf tree_gvc) (skipn k (o _ (subtrees t))))) = map (nval gv) (filter childless (skipn k (o _ t)))).
    { intros o Ho Hp k; pose proof (mid_filter gv into_iter poll n t Hw o Ho Hp (fun _ => true) k) as E.
      rewrite <- (here_positions o Ho (subtrees t)), <- (here_positions o Ho t), !skipn_map, !filter_of_map, !map_map.
      rewrite map_map in E; rewrite (filter_ext _ (fun p => is_leaf tree_gvc (pos_here p)) (fun p => andb_true_r _)), (filter_ext _ (fun p => leaf p) (fun p => andb_true_r _)) in E.
      exact E. }
    split; [|split; [|split]]; intros k s Ha.
    - destruct (mid_pre gv into_iter poll n t Hw k s Ha) as (s1 & Ha1 & HR); cbv zeta; rewrite <- (Hplain (@preorder) orderly_pre (fun X u => Permutation_refl _)).
      exact (yields_Rd gv into_iter poll _ _ _ HR (PropLeaves.C18_preorder_leaves_exact _ _ tree_gvc subtrees NodeFacts.node_tree_tree t k s1 Ha1)).
    - destruct (mid_post gv into_iter poll n t Hw k s Ha) as (s1 & Ha1 & HR); cbv zeta; rewrite <- (Hplain (@postorder) orderly_post (fun X u => SpecFacts.postorder_perm u)).
      exact (yields_Rd gv into_iter poll _ _ _ HR (PropLeaves.C18_postorder_leaves_exact _ _ tree_gvc subtrees NodeFacts.node_tree_tree t k s1 Ha1)).
    - destruct (mid_prea gv into_iter poll n t Hw k s Ha) as (s1 & Ha1 & HR).
      destruct (PropLeaves.C21_preorder_complete _ _ tree_gvc subtrees NodeFacts.node_tree_tree t k s1 Ha1) as (K & HK); exists K; intros j Hj; destruct (HK j Hj) as (os & s1' & Hc & Hp).
      destruct (calls_Rda gv into_iter poll _ _ _ _ _ HR Hc) as (s2' & Hc2); eexists _, s2'; split; [exact Hc2|].
      rewrite lasts_map, <- (Hleaf (@preorder) orderly_pre (fun X u => Permutation_refl _)); apply Permutation_map, Hp.
    - destruct (mid_posta gv into_iter poll n t Hw k s Ha) as (s1 & Ha1 & HR).
      destruct (PropLeaves.C21_postorder_complete _ _ tree_gvc subtrees NodeFacts.node_tree_tree t k s1 Ha1) as (K & HK); exists K; intros j Hj; destruct (HK j Hj) as (os & s1' & Hc & Hp).
      destruct (calls_Rda gv into_iter poll _ _ _ _ _ HR Hc) as (s2' & Hc2); eexists _, s2'; split; [exact Hc2|].
      rewrite lasts_map, <- (Hleaf (@postorder) orderly_post (fun X u => SpecFacts.postorder_perm u)); apply Permutation_map, Hp.
  Qed.

  (** C59.  How much of the tree is made.  Depth first: when the leaf at position [i] in postorder has just been given, [get_value_and_children] has been called once on each
      node up to it in postorder and once on each of its ancestors, and on no other node.  Breadth first: once on each node up to it, level by level, and on no other node. *)
  Theorem C59_calls_depth_first : forall (n : Nd) (i d b : nat) (p : pos Nd), let P := postorder (positions (cut d b n)) in
    Forall (uncut gv into_iter poll d b) (firstn (S i) P) -> nth_error P i = Some p -> leaf p = true ->
    let k := length (filter (fun p => leaf p) (firstn (S i) P)) in
    (forall s, after (ldl_next gv into_iter poll) k (lpre_leaves (lpre_new n)) s -> Permutation (ldl_log s) (entered (S i) P)) /\
    (forall s, after (ldl_next gv into_iter poll) k (lpost_leaves (lpost_new n)) s -> Permutation (ldl_log s) (entered (S i) P)) /\
    (forall s, after (ldal_next gv into_iter poll) k (lprea_leaves (lprea_new n)) s -> Permutation (lda_log s) (entered (S i) P)) /\
    (forall s, after (ldal_next gv into_iter poll) k (lposta_leaves (lpost_new n)) s -> Permutation (lda_log s) (entered (S i) P)).
  Proof.
    intros n i d b p P Hc Hp Hl k; pose proof (deep_cut gv into_iter poll (S i) d b n Hc) as Hw; pose proof (root_cut gv into_iter poll d b n) as Hr.
    rewrite <- Hr in Hw at 1.
    pose proof (Wdeep_shape gv into_iter poll) as Wsh; pose proof (Wdeep_nil gv into_iter poll) as Wn; pose proof (Wdeep_poll gv into_iter poll) as Wp.
    destruct (run_ldl gv into_iter poll _ Wsh Wn Wp _ (S i) k Hw (or_introl (le_n _))) as (s1 & H1 & _ & L1 & _); rewrite Hr in H1.
    destruct (run_ldal gv into_iter poll _ Wsh Wn Wp _ (S i) k Hw (or_introl (le_n _))) as (s2 & H2 & _ & L2 & _); rewrite Hr in H2.
    specialize (L1 i p Hp Hl eq_refl); specialize (L2 i p Hp Hl eq_refl).
    repeat split; intros s Ha; pattern s; refine (after_run _ _ _ _ _ _ Ha (ex_intro _ _ (conj _ _))); [exact H1|exact L1|exact H1|exact L1|exact H2|exact L2|exact H2|exact L2].
  Qed.

  Theorem C59_calls_breadth_first : forall (n : Nd) (i m d b : nat) (p : pos Nd), let Q := bfs (positions (cut d b n)) in
    i <= m -> m < d -> m < b -> nth_error Q m = Some p -> leaf p = true ->
    let k := length (filter (fun p => leaf p) (skipn i (firstn (S m) Q))) in
    (forall s s', after (lbfs_next gv into_iter poll) i (lbfs_new n) s -> after (lbl_next gv into_iter poll) k (lbfs_leaves s) s' ->
     rev (lbl_log s') = firstn (S m) (bfs (cut d b n))) /\
    (none_twice gv into_iter poll n ->
     forall s s', after (lbfsa_next gv into_iter poll) i (lbfsa_new gv into_iter n) s -> after (lbal_next gv into_iter poll) k (lbfsa_leaves s) s' ->
     rev (lbal_log s') = firstn (S m) (bfs (cut d b n))).
  Proof.
    intros n i m d b p Q Him Hd Hb Hp Hl k; pose proof (bfs_here (cut d b n)) as HQ; pose proof (bfs_len (cut d b n)) as HL; fold Q in HQ, HL.
    assert (Hm : m < length Q) by (apply nth_error_Some; congruence).
    assert (Hk : k = length (filter childless (skipn i (firstn (S m) (bfs (cut d b n)))))) by exact (leaf_count_eq i (S m) (cut d b n)).
    split.
    - intros s s' Ha Hs'; destruct (cut_plain gv into_iter poll n k i (S m) d b s ltac:(lia) Hd Hb ltac:(lia) ltac:(lia) Ha) as (s2 & H & _ & L & _).
      refine (after_run _ _ _ _ (fun s => rev (lbl_log s) = _) _ Hs' (ex_intro _ _ (conj H _))).
      apply (L m (pos_here p)); auto; rewrite <- HQ, nth_error_map, Hp; reflexivity.
    - intros Ht s s' Ha Hs'; destruct (cut_anc gv into_iter poll n k i (S m) d b s ltac:(lia) Hd Hb ltac:(lia) Ht (le_n _) Ha) as (s2 & H & _ & L & _).
      refine (after_run _ _ _ _ (fun s => rev (lbal_log s) = _) _ Hs' (ex_intro _ _ (conj H _))).
      rewrite <- HQ, firstn_map; exact (L m p Him Hp Hl eq_refl).
  Qed.

  (** C59.  When a [leaves()] iterator over a finite tree has given its first [None], [get_value_and_children] has been called exactly once on each node. *)
  Theorem C59_exactly_once : forall (n : Nd) (t : tree Nd) (k : nat), whole n t ->
    (length (filter childless (preorder t)) < k ->
     (forall s, after (ldl_next gv into_iter poll) k (lpre_leaves (lpre_new n)) s -> Permutation (ldl_log s) (preorder t)) /\
     (forall s, after (ldl_next gv into_iter poll) k (lpost_leaves (lpost_new n)) s -> Permutation (ldl_log s) (preorder t)) /\
     (forall s, after (ldal_next gv into_iter poll) k (lprea_leaves (lprea_new n)) s -> Permutation (lda_log s) (preorder t)) /\
     (forall s, after (ldal_next gv into_iter poll) k (lposta_leaves (lpost_new n)) s -> Permutation (lda_log s) (preorder t))) /\
    (forall i, i <= length (bfs t) -> length (filter childless (skipn i (bfs t))) < k ->
     (forall s s', after (lbfs_next gv into_iter poll) i (lbfs_new n) s -> after (lbl_next gv into_iter poll) k (lbfs_leaves s) s' -> rev (lbl_log s') = bfs t) /\
     (none_twice gv into_iter poll n ->
      forall s s', after (lbfsa_next gv into_iter poll) i (lbfsa_new gv into_iter n) s -> after (lbal_next gv into_iter poll) k (lbfsa_leaves s) s' -> rev (lbal_log s') = bfs t)).
  Proof.
    intros n t k Hw; split.
    - intros Hk; destruct (whole_ldl n t k Hw) as (s1 & H1 & _ & _ & L1); destruct (whole_ldal n t k Hw) as (s2 & H2 & _ & _ & L2).
      rewrite (here_positions (@postorder) orderly_post) in L1, L2.
      assert (Hc : length (filter (leafp gv into_iter poll) (postorder (positions t))) < k).
      { pose proof (Permutation_length (filter_perm childless _ _ (SpecFacts.postorder_perm t))) as E.
        rewrite <- (here_positions (@postorder) orderly_post t) in E; rewrite filter_map_len in E; unfold leafp; rewrite E; exact Hk. }
      specialize (L1 Hc); specialize (L2 Hc); rewrite SpecFacts.postorder_perm in L1, L2.
      repeat split; intros s Ha; pattern s; refine (after_run _ _ _ _ _ _ Ha (ex_intro _ _ (conj _ _))); [exact H1|exact L1|exact H1|exact L1|exact H2|exact L2|exact H2|exact L2].
    - intros i Hi Hk; split.
      + intros s s' Ha Hs'; destruct (whole_plain gv into_iter poll n t k i s Hw Hi Ha) as (s2 & H & _ & _ & L).
        exact (after_run _ _ _ _ (fun s => rev (lbl_log s) = _) _ Hs' (ex_intro _ _ (conj H (L Hk)))).
      + intros Ht s s' Ha Hs'; destruct (whole_anc gv into_iter poll n t k i s Hw Ht Hi Ha) as (s2 & H & _ & _ & L).
        rewrite bfs_here in L; refine (after_run _ _ _ _ (fun s => rev (lbal_log s) = _) _ Hs' (ex_intro _ _ (conj H (L _)))).
        rewrite <- (bfs_here t), skipn_map, filter_map_len in Hk; exact Hk.
  Qed.

  (** C59.  When the way down along first children never ends, the first call of [next()] on a depth first [leaves()] iterator does not come back; when no node of the tree is a leaf,
      neither does it breadth first. *)
  Theorem C59_endless : forall (n : Nd),
    (endless_first_children gv into_iter poll n -> forall fuel,
     ldl_next gv into_iter poll fuel (lpre_leaves (lpre_new n)) = OutOfFuel /\ ldl_next gv into_iter poll fuel (lpost_leaves (lpost_new n)) = OutOfFuel /\
     ldal_next gv into_iter poll fuel (lprea_leaves (lprea_new n)) = OutOfFuel /\ ldal_next gv into_iter poll fuel (lposta_leaves (lpost_new n)) = OutOfFuel) /\
    (no_leaf gv into_iter poll n -> forall fuel,
     lbl_next gv into_iter poll fuel (lbfs_leaves (lbfs_new n)) = OutOfFuel /\ lbal_next gv into_iter poll fuel (lbfsa_leaves (lbfsa_new gv into_iter n)) = OutOfFuel).
  Proof.
    intros n; split.
    - intros (path & <- & Hp) fuel; repeat split; try apply (endless_ldl gv into_iter poll path Hp); apply (endless_ldal gv into_iter poll path Hp).
    - intros H fuel; split; [apply endless_lbl, H|apply endless_lbal, H].
  Qed.
End C59.

(** C59.  The hypothesis [none_twice] is needed: the breadth first iterator with ancestors that finds the root to be a leaf keeps the children iterator of the root, and asks it again
    on the next call.  With an iterator that gives a child after [None], it gives a leaf that is not in the tree. *)
Theorem C59_root_again_refuted : exists (gv : nat -> nat * list (option nat)) (poll : list (option nat) -> option nat * list (option nat)) (n : nat) (t : tree nat),
  whole gv (fun l => l) poll n t /\
  ~ yields (lbal_next gv (fun l => l) poll) (lbfsa_leaves (lbfsa_new gv (fun l => l) n))
      (map (ancestors_at gv) (filter (fun p => childless gv (fun l => l) poll (pos_here p)) (bfs (positions t)))).
Proof.
  exists (fun n => (n, match n with 0 => [None; Some 1] | _ => [] end)), (fun it => match it with x :: rest => (x, rest) | [] => (None, []) end), 0, (TNode 0 []).
  split; [constructor; econstructor; reflexivity|].
  intros H; destruct (H 2) as [s [F HF]]; specialize (HF (F + 5) ltac:(lia)); replace (F + 5) with (S (S (S (S (S F))))) in HF by lia; vm_compute in HF; discriminate.
Qed.

(** ** Examples *)

Local Lemma after_0 {S O} (next : nat -> S -> Res (O * S)) s : after next 0 s s.
Proof. exists []; apply calls_0. Qed.

(** Node [n] is a leaf when it is odd; the children of an even node are all numbers above it, without end.  Leaves exist at every depth, and breadth first they are found. *)
Definition ex_ll_gv (n : nat) : nat * nat := (n, n).
Definition ex_ll_into (c : nat) : option nat := if Nat.even c then Some (S c) else None.
Definition ex_ll_poll (it : option nat) : option nat * option nat := match it with Some c => (Some c, Some (S c)) | None => (None, None) end.
Example C59_breadth_first_example : exists s,
  calls (lbl_next ex_ll_gv ex_ll_into ex_ll_poll) 2 (lbfs_leaves (lbfs_new 0)) ⇓ Ok ([Some 1; Some 3], s).
Proof.
  exact (proj1 (C59_breadth_first ex_ll_gv ex_ll_into ex_ll_poll 0 2 0 4 4 4 ltac:(lia) (le_n _) (le_n _) ltac:(lia) ltac:(vm_compute; lia)) _ (after_0 _ _)).
Qed.
Example C59_breadth_first_ancestors_example : exists s,
  calls (lbal_next ex_ll_gv ex_ll_into ex_ll_poll) 2 (lbfsa_leaves (lbfsa_new ex_ll_gv ex_ll_into 0)) ⇓ Ok ([Some [0; 1]; Some [0; 3]], s).
Proof.
  refine (proj2 (C59_breadth_first ex_ll_gv ex_ll_into ex_ll_poll 0 2 0 4 4 4 ltac:(lia) (le_n _) (le_n _) ltac:(lia) ltac:(vm_compute; lia)) _ _ (after_0 _ _)).
  discriminate.
Qed.
(** Depth first, the first leaf is found although its parent has endlessly many children. *)
Example C59_depth_first_example : exists s, calls (ldl_next ex_ll_gv ex_ll_into ex_ll_poll) 1 (lpre_leaves (lpre_new 0)) ⇓ Ok ([Some 1], s).
Proof.
  refine (proj1 (C59_depth_first ex_ll_gv ex_ll_into ex_ll_poll 0 1 1 2 2 _ _)); [|vm_compute; lia].
  constructor; [|constructor]; split; vm_compute; lia.
Qed.
Example C59_calls_breadth_first_example : forall s', after (lbl_next ex_ll_gv ex_ll_into ex_ll_poll) 2 (lbfs_leaves (lbfs_new 0)) s' -> rev (lbl_log s') = [0; 1; 2; 3].
Proof.
  intros s'; exact (proj1 (C59_calls_breadth_first ex_ll_gv ex_ll_into ex_ll_poll 0 0 3 4 4 _ (Nat.le_0_l _) (le_n _) (le_n _) eq_refl eq_refl) _ s' (after_0 _ _)).
Qed.
Example C59_calls_depth_first_example : forall s, after (ldl_next ex_ll_gv ex_ll_into ex_ll_poll) 1 (lpre_leaves (lpre_new 0)) s -> Permutation (ldl_log s) [1; 0].
Proof.
  refine (proj1 (C59_calls_depth_first ex_ll_gv ex_ll_into ex_ll_poll 0 0 2 2 _ _ eq_refl eq_refl)).
  constructor; [|constructor]; split; vm_compute; lia.
Qed.
(** A finite tree whose children iterators go on after [None]: node 0 has the leaves 1 and 2. *)
Definition ex_llw_gv (n : nat) : nat * list (option nat) := (10 * n, match n with 0 => [Some 1; Some 2; None; Some 1] | _ => [None; Some 0] end).
Definition ex_llw_poll (it : list (option nat)) : option nat * list (option nat) := match it with x :: rest => (x, rest) | [] => (None, []) end.
Example C59_whole_example : whole ex_llw_gv (fun l => l) ex_llw_poll 0 (TNode 0 [TNode 1 []; TNode 2 []]) /\ none_twice ex_llw_gv (fun l => l) ex_llw_poll 0 /\
  map (fun p => nval ex_llw_gv (pos_here p)) (filter (fun p => childless ex_llw_gv (fun l => l) ex_llw_poll (pos_here p)) (preorder (positions (TNode 0 [TNode 1 []; TNode 2 []])))) = [10; 20].
Proof.
  split; [|split; [discriminate|reflexivity]].
  constructor; econstructor; [reflexivity|constructor; eapply wholes_end; reflexivity|].
  econstructor; [reflexivity|constructor; eapply wholes_end; reflexivity|]; eapply wholes_end; reflexivity.
Qed.
(** [leaves()] after two calls of [next()] in preorder: the root and 1 have been given, 2 is lost, for its parent has been entered. *)
Example C59_mid_example : let t := TNode 0 [TNode 1 []; TNode 2 []] in let L := preorder (positions t) in
  filter (fun p => childless ex_llw_gv (fun l => l) ex_llw_poll (pos_here p) && negb (parent_entered (firstn 2 L) p)) (skipn 2 L) = [] /\
  map (nval ex_llw_gv) (filter (childless ex_llw_gv (fun l => l) ex_llw_poll) (skipn 2 (preorder t))) = [20].
Proof. split; reflexivity. Qed.
(** Every node has one child: no leaf, and no end to the first children. *)
Example C59_endless_example : let gv := fun n : nat => (n, n) in let poll := fun it : nat => (Some it, it) in
  endless_first_children gv S poll 0 /\ no_leaf gv S poll 0.
Proof. intros gv poll; split; [exists (fun i => i); split; reflexivity|intros d b m _; reflexivity]. Qed.

Print Assumptions C59_depth_first.
Print Assumptions C59_breadth_first.
Print Assumptions C59_whole.
Print Assumptions C59_mid.
Print Assumptions C59_calls_depth_first.
Print Assumptions C59_calls_breadth_first.
Print Assumptions C59_exactly_once.
Print Assumptions C59_endless.
Print Assumptions C59_root_again_refuted.
