(** * C51, C52: trees that are made while they are traversed

    A node gives a value and a container of children ([gv]); the container gives an iterator ([into_iter]) that is asked for one
    child at a time ([poll]).  Nothing is assumed about these: the iterator may never end, may give more children after it gave
    [None], and there may be no bottom.  [cut d b n] is the finite tree hanging from [n] with all below depth [d] and
    all children after the [b]-th cut off; [whole n t] says that the tree hanging from [n] is finite and is [t] (SpecLazy). *)
From Coq Require Import Permutation.
From Verif Require Import Prelim PrelimFacts Spec SpecObs SpecEdit SpecLazy ModelNode ModelPre ModelPost ModelBfs ModelLazy.
From Verif Require SpecFacts.
From Verif Require Import ProofsLazy ProofsLazyCtx ProofsLazyInst ProofsLazyRun ProofsLazyBin ProofsLazyDeep.

Section C51.
  Context {Nd V C It : Type}.
  Variable gv : Nd -> V * C.
  Variable into_iter : C -> It.
  Variable poll : It -> option Nd * It.
  Local Notation cut := (cut gv into_iter poll).
  Local Notation whole := (whole gv into_iter poll).
  Local Notation answers k l := (map (nth_error l) (seq 0 k)).

  (** C51.  The first [k] calls of [next()] on a preorder iterator come back, and give what they would give
      on the tree cut off below depth [k] and after [k] children of each node (or anywhere further down).  The tree itself need not be finite. *)
  Theorem C51_preorder : forall (n : Nd) (k d b : nat), k <= d -> k <= b ->
    (exists s, calls (lpre_next gv into_iter poll) k (lpre_new n) ⇓ Ok (answers k (map (nval gv) (preorder (cut d b n))), s)) /\
    (exists s, calls (lprea_next gv into_iter poll) k (lprea_new n) ⇓ Ok (answers k (map (ancestors_at gv) (preorder (positions (cut d b n)))), s)) /\
    ((N.of_nat b <= usize_max)%N ->
     exists s, calls (lprec_next gv into_iter (nary_scan poll)) k (lprec_new n []) ⇓ Ok (answers k (map (context_at gv) (preorder (positions (cut d b n)))), s)).
  Proof.
    intros n k d b Hd Hb; pose proof (upto_cut gv into_iter poll k d b n Hd Hb) as Hu.
    pose proof (root_cut gv into_iter poll d b n) as Hr.
    split; [|split; [|intros Hs]].
    - destruct (run_pre gv into_iter poll _ (uptos_le _ _ _) (uptos_poll _ _ _) _ k Hu) as (s & H & _); rewrite Hr in H; eauto.
    - destruct (run_prea gv into_iter poll _ (uptos_le _ _ _) (uptos_poll _ _ _) _ k Hu) as (s & H & _); rewrite Hr in H; eauto.
    - destruct (run_prec_nary gv into_iter poll _ (uptos_le _ _ _) (uptos_poll _ _ _) _ k Hu (small_cut _ _ _ b Hs d n)) as (s & H & _); rewrite Hr in H; eauto.
  Qed.

  (** C51.  The same breadth first.  The iterator with ancestors panics when it is called after its end (C21), hence its bound on [k]. *)
  Theorem C51_bfs : forall (n : Nd) (k d b : nat), k <= d -> k <= b ->
    (exists s, calls (lbfs_next gv into_iter poll) k (lbfs_new n) ⇓ Ok (answers k (map (nval gv) (bfs (cut d b n))), s)) /\
    (k <= S (length (bfs (cut d b n))) ->
     exists s, calls (lbfsa_next gv into_iter poll) k (lbfsa_new gv into_iter n) ⇓ Ok (answers k (map (ancestors_at gv) (bfs (positions (cut d b n)))), s)) /\
    ((N.of_nat b <= usize_max)%N ->
     exists s, calls (lbfsc_next gv into_iter (nary_fetch poll)) k (lbfsc_new gv n []) ⇓ Ok (answers k (map (context_at gv) (bfs (positions (cut d b n)))), s)).
  Proof.
    intros n k d b Hd Hb; pose proof (upto_cut gv into_iter poll k d b n Hd Hb) as Hu.
    pose proof (root_cut gv into_iter poll d b n) as Hr.
    split; [|split; [intros Hk|intros Hs]].
    - destruct (run_bfs gv into_iter poll _ (uptos_le _ _ _) (uptos_poll _ _ _) _ k Hu) as (s & H & _); rewrite Hr in H; eauto.
    - destruct (run_bfsa gv into_iter poll _ (uptos_le _ _ _) (uptos_poll _ _ _) _ k Hu Hk) as (s & H & _); rewrite Hr in H; eauto.
    - destruct (run_bfsc_nary gv into_iter poll _ (uptos_le _ _ _) (uptos_poll _ _ _) _ k Hu (small_cut _ _ _ b Hs d n)) as (s & H & _); rewrite Hr in H; eauto.
  Qed.

  (** C51.  When the tree is finite, every iterator gives all of it, although the children iterators may go on after their first [None]. *)
  Theorem C51_whole : forall (n : Nd) (t : tree Nd), whole n t ->
    yields (lpre_next gv into_iter poll) (lpre_new n) (map (nval gv) (preorder t)) /\
    yields (lprea_next gv into_iter poll) (lprea_new n) (map (ancestors_at gv) (preorder (positions t))) /\
    yields (lbfs_next gv into_iter poll) (lbfs_new n) (map (nval gv) (bfs t)) /\
    yields_to_end (lbfsa_next gv into_iter poll) (lbfsa_new gv into_iter n) (map (ancestors_at gv) (bfs (positions t))) /\
    yields (lpost_next gv into_iter poll) (lpost_new n) (map (nval gv) (postorder t)) /\
    yields (lposta_next gv into_iter poll) (lpost_new n) (map (ancestors_at gv) (postorder (positions t))) /\
    (small_tree t ->
     yields (lprec_next gv into_iter (nary_scan poll)) (lprec_new n []) (map (context_at gv) (preorder (positions t))) /\
     yields (lbfsc_next gv into_iter (nary_fetch poll)) (lbfsc_new gv n []) (map (context_at gv) (bfs (positions t))) /\
     yields (lpostc_next gv into_iter (nary_scan poll)) (lpostc_new n []) (map (context_at gv) (postorder (positions t)))).
  Proof.
    intros n t Hw; destruct (whole_root gv into_iter poll n t Hw) as [Hr Hu]; subst n.
    set (U := fun _ : nat => wholes gv into_iter poll).
    assert (Ule : forall m it l, U (S m) it l -> U m it l) by auto.
    pose proof (fun k : nat => Forall2_cons (R := wholes gv into_iter poll) _ _ Hu (Forall2_nil _)) as Hw'.
    set (Ws := Wwhole gv into_iter poll).
    pose proof (Wwhole_shape gv into_iter poll) as Wsh; pose proof (Wwhole_nil gv into_iter poll) as Wn; pose proof (Wwhole_poll gv into_iter poll) as Wp.
    assert (Wl : forall m q2 q1, Ws (S m) q2 q1 -> Ws m q2 q1) by auto.
    pose proof (fun m : nat => wholes_poll gv into_iter poll) as Up.
    split; [|split; [|split; [|split; [|split; [|split; [|intros Hs; split; [|split]]]]]]].
    - intros k; destruct (run_pre gv into_iter poll U Ule Up t k Hu) as (s & H & _); eauto.
    - intros k; destruct (run_prea gv into_iter poll U Ule Up t k Hu) as (s & H & _); eauto.
    - intros k; destruct (run_bfs gv into_iter poll U Ule Up t k Hu) as (s & H & _); eauto.
    - intros k Hk; rewrite map_length, <- (map_length pos_here), (here_positions (@bfs) orderly_bfs) in Hk.
      destruct (run_bfsa gv into_iter poll U Ule Up t k Hu Hk) as (s & H & _); eauto.
    - intros k; destruct (run_post gv into_iter poll t k Ws Wsh Wn Wp (Hw' k)) as (s & H & _); eauto.
    - intros k; destruct (run_posta gv into_iter poll t k Ws Wsh Wn Wp (Hw' k)) as (s & H & _); eauto.
    - intros k; destruct (run_prec_nary gv into_iter poll U Ule Up t k Hu Hs) as (s & H & _); eauto.
    - intros k; destruct (run_bfsc_nary gv into_iter poll U Ule Up t k Hu Hs) as (s & H & _); eauto.
    - intros k; destruct (run_postc_nary gv into_iter poll Ws Wsh Wn Wl Wp t k (Hw' k) Hs) as (s & H & _); eauto.
  Qed.

  (** C51.  In postorder the first [k] calls come back as soon as the tree is finite where they look: the first [k] nodes in postorder of some finite cut
      have all their children in the cut.  What lies behind them need not be finite. *)
  Theorem C51_postorder : forall (n : Nd) (k d b : nat), Forall (uncut gv into_iter poll d b) (firstn k (postorder (positions (cut d b n)))) ->
    (exists s, calls (lpost_next gv into_iter poll) k (lpost_new n) ⇓ Ok (answers k (map (nval gv) (postorder (cut d b n))), s)) /\
    (exists s, calls (lposta_next gv into_iter poll) k (lpost_new n) ⇓ Ok (answers k (map (ancestors_at gv) (postorder (positions (cut d b n)))), s)) /\
    ((N.of_nat b <= usize_max)%N ->
     exists s, calls (lpostc_next gv into_iter (nary_scan poll)) k (lpostc_new n []) ⇓ Ok (answers k (map (context_at gv) (postorder (positions (cut d b n)))), s)).
  Proof.
    intros n k d b Hc; pose proof (deep_cut gv into_iter poll k d b n Hc) as Hw; pose proof (root_cut gv into_iter poll d b n) as Hr.
    rewrite <- Hr in Hw at 1.
    pose proof (Wdeep_shape gv into_iter poll) as Wsh; pose proof (Wdeep_nil gv into_iter poll) as Wn; pose proof (Wdeep_poll gv into_iter poll) as Wp.
    split; [|split; [|intros Hs]].
    - destruct (run_post gv into_iter poll _ k _ Wsh Wn Wp Hw) as (s & H & _); rewrite Hr in H; eauto.
    - destruct (run_posta gv into_iter poll _ k _ Wsh Wn Wp Hw) as (s & H & _); rewrite Hr in H; eauto.
    - destruct (run_postc_nary gv into_iter poll _ Wsh Wn (Wdeep_le gv into_iter poll) Wp _ k Hw (small_cut _ _ _ b Hs d n)) as (s & H & _); rewrite Hr in H; eauto.
  Qed.

  (** C51.  A postorder iterator must get to the bottom before it can give anything: when the way down along first children never ends,
      the first call of [next()] does not come back. *)
  Theorem C51_postorder_endless : forall n, endless_first_children gv into_iter poll n ->
    (forall fuel, lpost_next gv into_iter poll fuel (lpost_new n) = OutOfFuel) /\
    (forall fuel, lposta_next gv into_iter poll fuel (lpost_new n) = OutOfFuel) /\
    (forall fuel, lpostc_next gv into_iter (nary_scan poll) fuel (lpostc_new n []) = OutOfFuel).
  Proof.
    intros n (path & <- & Hp); split; [|split]; intros fuel.
    - apply (endless_post gv into_iter poll path Hp).
    - apply (endless_posta gv into_iter poll path Hp).
    - apply (endless_postc gv into_iter poll path Hp).
  Qed.
End C51.

(** C51 for the iterators of binary trees with context; the other iterators of binary trees are instances of the theorems above, stated on binary trees in PropLazyBinary. *)
Theorem C51_binary : forall {Nd V} (gvcb : Nd -> V * (option Nd * option Nd)) (n : Nd) (k d : nat), k <= d ->
  (exists s, calls (lprec_next gvcb pair_iter prec_scan) k (lprec_new n []) ⇓
     Ok (map (nth_error (map (context_at gvcb) (preorder (flat (bpositions (bcut gvcb d n)))))) (seq 0 k), s)) /\
  (exists s, calls (lbfsc_next gvcb pair_iter bfsc_skip) k (lbfsc_new gvcb n []) ⇓
     Ok (map (nth_error (map (context_at gvcb) (bfs (flat (bpositions (bcut gvcb d n)))))) (seq 0 k), s)) /\
  (forall t, bwhole gvcb n t ->
   exists s, calls (lpostc_next gvcb pair_iter prec_scan) k (lpostc_new n []) ⇓
     Ok (map (nth_error (map (context_at gvcb) (postorder (flat (bpositions t))))) (seq 0 k), s)).
Proof.
  intros Nd V gvcb n k d Hk; pose proof (bupto_bcut gvcb k d n Hk) as Hu; pose proof (broot_bcut gvcb d n) as Hr.
  split; [|split; [|intros t Hw]].
  - destruct (run_prec_binary gvcb _ (bupto_le gvcb) (bupto_node gvcb) _ k Hu) as (s & H & _); rewrite Hr in H; eauto.
  - destruct (run_bfsc_binary gvcb _ (bupto_le gvcb) (bupto_node gvcb) _ k Hu) as (s & H & _); rewrite Hr in H; eauto.
  - destruct (bwhole_root gvcb n t Hw) as [<- Hb].
    destruct (run_postc_binary gvcb (Wbwhole gvcb) (fun _ => F2_len _) (fun _ => Forall2_nil _) (fun _ _ _ H => H) (Wbwhole_scan gvcb) t k ltac:(constructor; [destruct Hb; repeat constructor; assumption|constructor])) as (s & H & _); eauto.
Qed.

(** C51 for the iterator of binary trees with context in postorder. *)
Theorem C51_binary_postorder : forall {Nd V} (gvcb : Nd -> V * (option Nd * option Nd)) (n : Nd) (k d : nat),
  Forall (fun p => length (pos_path p) < d) (firstn k (postorder (flat (bpositions (bcut gvcb d n))))) ->
  exists s, calls (lpostc_next gvcb pair_iter prec_scan) k (lpostc_new n []) ⇓
    Ok (map (nth_error (map (context_at gvcb) (postorder (flat (bpositions (bcut gvcb d n)))))) (seq 0 k), s).
Proof.
  intros Nd V gvcb n k d Hc; pose proof (bdeep_cut gvcb k d n Hc) as Hw; pose proof (broot_bcut gvcb d n) as Hr.
  rewrite <- Hr in Hw at 1.
  destruct (run_postc_binary gvcb _ (Wbdeep_shape gvcb) (Wbdeep_nil gvcb) (Wbdeep_le gvcb) (Wbdeep_scan gvcb) _ k Hw) as (s & H & _); rewrite Hr in H; eauto.
Qed.

Section C52.
  Context {Nd V C It : Type}.
  Variable gv : Nd -> V * C.
  Variable into_iter : C -> It.
  Variable poll : It -> option Nd * It.
  Local Notation cut := (cut gv into_iter poll).
  Local Notation whole := (whole gv into_iter poll).

  Lemma after_run {S O} (next : nat -> S -> Res (O * S)) k s0 s (P : S -> Prop) os : after next k s0 s ->
    (exists s', calls next k s0 ⇓ Ok (os, s') /\ P s') -> P s.
  Proof. intros [os' H] (s' & H' & HP); pose proof (conv_fun _ _ _ H H') as E; injection E as _ <-; exact HP. Qed.

  (** C52.  After [k] calls of [next()], a preorder iterator has called [get_value_and_children] on the first [k] nodes in preorder, in that order and
      once each (on all of them when there are fewer than [k]), and on no other node.  The logs have the last call first. *)
  Theorem C52_preorder : forall (n : Nd) (k d b : nat), k <= d -> k <= b ->
    (forall s, after (lpre_next gv into_iter poll) k (lpre_new n) s -> rev (lp_log s) = firstn k (preorder (cut d b n))) /\
    (forall s, after (lprea_next gv into_iter poll) k (lprea_new n) s -> rev (lpa_log s) = firstn k (preorder (cut d b n))) /\
    ((N.of_nat b <= usize_max)%N ->
     forall s, after (lprec_next gv into_iter (nary_scan poll)) k (lprec_new n []) s -> rev (lpc_log s) = firstn k (preorder (cut d b n))).
  Proof.
    intros n k d b Hd Hb; pose proof (upto_cut gv into_iter poll k d b n Hd Hb) as Hu.
    pose proof (root_cut gv into_iter poll d b n) as Hr.
    split; [|split; [|intros Hs]]; intros s Ha; pattern s; refine (after_run _ _ _ _ _ _ Ha _); clear s Ha; cbv beta.
    - pose proof (run_pre gv into_iter poll _ (uptos_le _ _ _) (uptos_poll _ _ _) _ k Hu) as H; rewrite Hr in H; exact H.
    - pose proof (run_prea gv into_iter poll _ (uptos_le _ _ _) (uptos_poll _ _ _) _ k Hu) as H; rewrite Hr in H; exact H.
    - pose proof (run_prec_nary gv into_iter poll _ (uptos_le _ _ _) (uptos_poll _ _ _) _ k Hu (small_cut _ _ _ b Hs d n)) as H; rewrite Hr in H; exact H.
  Qed.

  (** C52.  The same breadth first.  The iterators with ancestors and with context have called it on the root when they are created. *)
  Theorem C52_bfs : forall (n : Nd) (k d b : nat), k <= d -> k <= b ->
    (forall s, after (lbfs_next gv into_iter poll) k (lbfs_new n) s -> rev (lb_log s) = firstn k (bfs (cut d b n))) /\
    (k <= S (length (bfs (cut d b n))) ->
     forall s, after (lbfsa_next gv into_iter poll) k (lbfsa_new gv into_iter n) s -> rev (lba_log s) = firstn (Nat.max 1 k) (bfs (cut d b n))) /\
    ((N.of_nat b <= usize_max)%N ->
     forall s, after (lbfsc_next gv into_iter (nary_fetch poll)) k (lbfsc_new gv n []) s -> rev (lbc_log s) = firstn (Nat.max 1 k) (bfs (cut d b n))).
  Proof.
    intros n k d b Hd Hb; pose proof (upto_cut gv into_iter poll k d b n Hd Hb) as Hu.
    pose proof (root_cut gv into_iter poll d b n) as Hr.
    split; [|split; [intros Hk|intros Hs]]; intros s Ha; pattern s; refine (after_run _ _ _ _ _ _ Ha _); clear s Ha; cbv beta.
    - pose proof (run_bfs gv into_iter poll _ (uptos_le _ _ _) (uptos_poll _ _ _) _ k Hu) as H; rewrite Hr in H; exact H.
    - pose proof (run_bfsa gv into_iter poll _ (uptos_le _ _ _) (uptos_poll _ _ _) _ k Hu Hk) as H; rewrite Hr in H; exact H.
    - pose proof (run_bfsc_nary gv into_iter poll _ (uptos_le _ _ _) (uptos_poll _ _ _) _ k Hu (small_cut _ _ _ b Hs d n)) as H; rewrite Hr in H; exact H.
  Qed.

  (** C52.  A postorder iterator has called it once on each node that it has returned and on each ancestor of the last one, and on no other node. *)
  Theorem C52_postorder : forall (n : Nd) (t : tree Nd) (k : nat), whole n t ->
    (forall s, after (lpost_next gv into_iter poll) k (lpost_new n) s -> Permutation (lt_log s) (entered k (postorder (positions t)))) /\
    (forall s, after (lposta_next gv into_iter poll) k (lpost_new n) s -> Permutation (lt_log s) (entered k (postorder (positions t)))) /\
    (small_tree t ->
     forall s, after (lpostc_next gv into_iter (nary_scan poll)) k (lpostc_new n []) s -> Permutation (ltc_log s) (entered k (postorder (positions t)))).
  Proof.
    intros n t k Hw; destruct (whole_root gv into_iter poll n t Hw) as [Hr Hu]; subst n.
    set (U := fun _ : nat => wholes gv into_iter poll).
    assert (Ule : forall m it l, U (S m) it l -> U m it l) by auto.
    pose proof (fun k : nat => Forall2_cons (R := wholes gv into_iter poll) _ _ Hu (Forall2_nil _)) as Hw'.
    set (Ws := Wwhole gv into_iter poll).
    pose proof (Wwhole_shape gv into_iter poll) as Wsh; pose proof (Wwhole_nil gv into_iter poll) as Wn; pose proof (Wwhole_poll gv into_iter poll) as Wp.
    assert (Wl : forall m q2 q1, Ws (S m) q2 q1 -> Ws m q2 q1) by auto.
    pose proof (fun m : nat => wholes_poll gv into_iter poll) as Up.
    split; [|split; [|intros Hs]]; intros s Ha; pattern s; refine (after_run _ _ _ _ _ _ Ha _); clear s Ha; cbv beta.
    - exact (run_post gv into_iter poll t k Ws Wsh Wn Wp (Hw' k)).
    - exact (run_posta gv into_iter poll t k Ws Wsh Wn Wp (Hw' k)).
    - exact (run_postc_nary gv into_iter poll Ws Wsh Wn Wl Wp t k (Hw' k) Hs).
  Qed.

  (** C52.  So it has when the tree is finite only where it has been. *)
  Theorem C52_postorder_cut : forall (n : Nd) (k d b : nat), Forall (uncut gv into_iter poll d b) (firstn k (postorder (positions (cut d b n)))) ->
    (forall s, after (lpost_next gv into_iter poll) k (lpost_new n) s -> Permutation (lt_log s) (entered k (postorder (positions (cut d b n))))) /\
    (forall s, after (lposta_next gv into_iter poll) k (lpost_new n) s -> Permutation (lt_log s) (entered k (postorder (positions (cut d b n))))) /\
    ((N.of_nat b <= usize_max)%N ->
     forall s, after (lpostc_next gv into_iter (nary_scan poll)) k (lpostc_new n []) s -> Permutation (ltc_log s) (entered k (postorder (positions (cut d b n))))).
  Proof.
    intros n k d b Hc; pose proof (deep_cut gv into_iter poll k d b n Hc) as Hw; pose proof (root_cut gv into_iter poll d b n) as Hr.
    rewrite <- Hr in Hw at 1.
    pose proof (Wdeep_shape gv into_iter poll) as Wsh; pose proof (Wdeep_nil gv into_iter poll) as Wn; pose proof (Wdeep_poll gv into_iter poll) as Wp.
    split; [|split; [|intros Hs]]; intros s Ha; pattern s; refine (after_run _ _ _ _ _ _ Ha _); clear s Ha; cbv beta.
    - pose proof (run_post gv into_iter poll _ k _ Wsh Wn Wp Hw) as H; rewrite Hr in H; exact H.
    - pose proof (run_posta gv into_iter poll _ k _ Wsh Wn Wp Hw) as H; rewrite Hr in H; exact H.
    - pose proof (run_postc_nary gv into_iter poll _ Wsh Wn (Wdeep_le gv into_iter poll) Wp _ k Hw (small_cut _ _ _ b Hs d n)) as H; rewrite Hr in H; exact H.
  Qed.

  (** C52.  When an iterator over a finite tree has come to its end, it has called [get_value_and_children] exactly once on each node.
      (After [length (preorder t)] calls every node has been returned; more calls make no difference.) *)
  Theorem C52_exactly_once : forall (n : Nd) (t : tree Nd) (k : nat), whole n t -> length (preorder t) <= k ->
    (forall s, after (lpre_next gv into_iter poll) k (lpre_new n) s -> rev (lp_log s) = preorder t) /\
    (forall s, after (lprea_next gv into_iter poll) k (lprea_new n) s -> rev (lpa_log s) = preorder t) /\
    (forall s, after (lbfs_next gv into_iter poll) k (lbfs_new n) s -> rev (lb_log s) = bfs t) /\
    (k <= S (length (preorder t)) -> forall s, after (lbfsa_next gv into_iter poll) k (lbfsa_new gv into_iter n) s -> rev (lba_log s) = bfs t) /\
    (forall s, after (lpost_next gv into_iter poll) k (lpost_new n) s -> Permutation (lt_log s) (preorder t)) /\
    (forall s, after (lposta_next gv into_iter poll) k (lpost_new n) s -> Permutation (lt_log s) (preorder t)) /\
    (small_tree t ->
     (forall s, after (lprec_next gv into_iter (nary_scan poll)) k (lprec_new n []) s -> rev (lpc_log s) = preorder t) /\
     (forall s, after (lbfsc_next gv into_iter (nary_fetch poll)) k (lbfsc_new gv n []) s -> rev (lbc_log s) = bfs t) /\
     (forall s, after (lpostc_next gv into_iter (nary_scan poll)) k (lpostc_new n []) s -> Permutation (ltc_log s) (preorder t))).
  Proof.
    intros n t k Hw Hk; destruct (whole_root gv into_iter poll n t Hw) as [Hr Hu]; subst n.
    set (U := fun _ : nat => wholes gv into_iter poll).
    assert (Ule : forall m it l, U (S m) it l -> U m it l) by auto.
    pose proof (fun k : nat => Forall2_cons (R := wholes gv into_iter poll) _ _ Hu (Forall2_nil _)) as Hw'.
    set (Ws := Wwhole gv into_iter poll).
    pose proof (Wwhole_shape gv into_iter poll) as Wsh; pose proof (Wwhole_nil gv into_iter poll) as Wn; pose proof (Wwhole_poll gv into_iter poll) as Wp.
    assert (Wl : forall m q2 q1, Ws (S m) q2 q1 -> Ws m q2 q1) by auto.
    pose proof (fun m : nat => wholes_poll gv into_iter poll) as Up.
    pose proof (Permutation_length (SpecFacts.bfs_perm t)) as Hb; pose proof (Permutation_length (SpecFacts.postorder_perm t)) as Hpo.
    assert (H1 : firstn k (preorder t) = preorder t) by (apply firstn_all2; lia).
    assert (H2 : firstn k (bfs t) = bfs t) by (apply firstn_all2; lia).
    assert (H3 : firstn (Nat.max 1 k) (bfs t) = bfs t) by (apply firstn_all2; lia).
    assert (H4 : Permutation (entered k (postorder (positions t))) (preorder t)).
    { pose proof (map_length pos_here (postorder (positions t))) as Hl; rewrite (here_positions (@postorder) orderly_post) in Hl.
      unfold entered; rewrite <- firstn_map, (here_positions (@postorder) orderly_post), firstn_all2 by lia.
      assert (E : match k with 0 => [] | S j => match nth_error (postorder (positions t)) j with Some p => pos_above p | None => [] end end = []).
      { destruct k as [|j]; [reflexivity|]; destruct (nth_error (postorder (positions t)) j) as [p|] eqn:E; [|reflexivity].
        assert (Hj : j < length (postorder (positions t))) by (apply nth_error_Some; congruence).
        assert (Hj' : j = length (postorder (positions t)) - 1) by lia.
        unfold positions in *; destruct t as [v ts]; cbn [annotate postorder] in *; rewrite app_length in Hj'; cbn [length] in Hj'.
        rewrite nth_error_app2 in E by lia; replace (j - _) with 0 in E by lia; injection E as <-; reflexivity. }
      rewrite E, app_nil_r; apply SpecFacts.postorder_perm. }
    split; [|split; [|split; [|split; [intros Hk'|split; [|split; [|intros Hs; split; [|split]]]]]]]; intros s Ha.
    - rewrite <- H1; exact (after_run _ _ _ _ (fun s => rev (lp_log s) = _) _ Ha (run_pre gv into_iter poll U Ule Up t k Hu)).
    - rewrite <- H1; exact (after_run _ _ _ _ (fun s => rev (lpa_log s) = _) _ Ha (run_prea gv into_iter poll U Ule Up t k Hu)).
    - rewrite <- H2; exact (after_run _ _ _ _ (fun s => rev (lb_log s) = _) _ Ha (run_bfs gv into_iter poll U Ule Up t k Hu)).
    - rewrite <- H3; exact (after_run _ _ _ _ (fun s => rev (lba_log s) = _) _ Ha (run_bfsa gv into_iter poll U Ule Up t k Hu ltac:(lia))).
    - rewrite <- H4; exact (after_run _ _ _ _ (fun s => Permutation (lt_log s) _) _ Ha (run_post gv into_iter poll t k Ws Wsh Wn Wp (Hw' k))).
    - rewrite <- H4; exact (after_run _ _ _ _ (fun s => Permutation (lt_log s) _) _ Ha (run_posta gv into_iter poll t k Ws Wsh Wn Wp (Hw' k))).
    - rewrite <- H1; exact (after_run _ _ _ _ (fun s => rev (lpc_log s) = _) _ Ha (run_prec_nary gv into_iter poll U Ule Up t k Hu Hs)).
    - rewrite <- H3; exact (after_run _ _ _ _ (fun s => rev (lbc_log s) = _) _ Ha (run_bfsc_nary gv into_iter poll U Ule Up t k Hu Hs)).
    - rewrite <- H4; exact (after_run _ _ _ _ (fun s => Permutation (ltc_log s) _) _ Ha (run_postc_nary gv into_iter poll Ws Wsh Wn Wl Wp t k (Hw' k) Hs)).
  Qed.
End C52.

(** C52 for the iterators of binary trees with context. *)
Theorem C52_binary : forall {Nd V} (gvcb : Nd -> V * (option Nd * option Nd)) (n : Nd) (k d : nat), k <= d ->
  (forall s, after (lprec_next gvcb pair_iter prec_scan) k (lprec_new n []) s -> rev (lpc_log s) = firstn k (preorder (flat (bcut gvcb d n)))) /\
  (forall s, after (lbfsc_next gvcb pair_iter bfsc_skip) k (lbfsc_new gvcb n []) s -> rev (lbc_log s) = firstn (Nat.max 1 k) (bfs (flat (bcut gvcb d n)))) /\
  (forall t, bwhole gvcb n t ->
   forall s, after (lpostc_next gvcb pair_iter prec_scan) k (lpostc_new n []) s -> Permutation (ltc_log s) (entered k (postorder (flat (bpositions t))))).
Proof.
  intros Nd V gvcb n k d Hk; pose proof (bupto_bcut gvcb k d n Hk) as Hu; pose proof (broot_bcut gvcb d n) as Hr.
  split; [|split; [|intros t Hw]]; intros s Ha; pattern s; refine (after_run _ _ _ _ _ _ Ha _); clear s Ha; cbv beta.
  - pose proof (run_prec_binary gvcb _ (bupto_le gvcb) (bupto_node gvcb) _ k Hu) as H; rewrite Hr in H; exact H.
  - pose proof (run_bfsc_binary gvcb _ (bupto_le gvcb) (bupto_node gvcb) _ k Hu) as H; rewrite Hr in H; exact H.
  - destruct (bwhole_root gvcb n t Hw) as [<- Hb].
    exact (run_postc_binary gvcb (Wbwhole gvcb) (fun _ => F2_len _) (fun _ => Forall2_nil _) (fun _ _ _ H => H) (Wbwhole_scan gvcb) t k ltac:(constructor; [destruct Hb; repeat constructor; assumption|constructor])).
Qed.

Theorem C52_binary_postorder : forall {Nd V} (gvcb : Nd -> V * (option Nd * option Nd)) (n : Nd) (k d : nat),
  Forall (fun p => length (pos_path p) < d) (firstn k (postorder (flat (bpositions (bcut gvcb d n))))) ->
  forall s, after (lpostc_next gvcb pair_iter prec_scan) k (lpostc_new n []) s -> Permutation (ltc_log s) (entered k (postorder (flat (bpositions (bcut gvcb d n))))).
Proof.
  intros Nd V gvcb n k d Hc; pose proof (bdeep_cut gvcb k d n Hc) as Hw; pose proof (broot_bcut gvcb d n) as Hr.
  rewrite <- Hr in Hw at 1; intros s Ha; pattern s; refine (after_run _ _ _ _ _ _ Ha _); clear s Ha; cbv beta.
  pose proof (run_postc_binary gvcb _ (Wbdeep_shape gvcb) (Wbdeep_nil gvcb) (Wbdeep_le gvcb) (Wbdeep_scan gvcb) _ k Hw) as H; rewrite Hr in H; exact H.
Qed.

(** ** Examples *)

(** A tree with no bottom in which every node has endlessly many children: a node is its path (last segment first), its value is that path,
    its container is that path again, and the iterator over it is the path with the number of the next child. *)
Definition ex_lazy_gv (n : list nat) : list nat * list nat := (n, n).
Definition ex_lazy_into (c : list nat) : list nat * nat := (c, 0).
Definition ex_lazy_poll (it : list nat * nat) : option (list nat) * (list nat * nat) := (Some (snd it :: fst it), (fst it, S (snd it))).

Example C51_preorder_example : exists s,
  calls (lpre_next ex_lazy_gv ex_lazy_into ex_lazy_poll) 4 (lpre_new []) ⇓ Ok ([Some []; Some [0]; Some [0; 0]; Some [0; 0; 0]], s).
Proof. exact (proj1 (C51_preorder ex_lazy_gv ex_lazy_into ex_lazy_poll [] 4 4 4 (le_n 4) (le_n 4))). Qed.
Example C51_bfs_example : exists s,
  calls (lbfs_next ex_lazy_gv ex_lazy_into ex_lazy_poll) 4 (lbfs_new []) ⇓ Ok ([Some []; Some [0]; Some [1]; Some [2]], s).
Proof. exact (proj1 (C51_bfs ex_lazy_gv ex_lazy_into ex_lazy_poll [] 4 4 4 (le_n 4) (le_n 4))). Qed.
Example C51_bfs_context_example : exists s,
  calls (lbfsc_next ex_lazy_gv ex_lazy_into (nary_fetch ex_lazy_poll)) 3 (lbfsc_new ex_lazy_gv [] []) ⇓
    Ok ([Some (mkCtx [] [[]] (Some [])); Some (mkCtx [0%N] [[]; [0]] (Some [0])); Some (mkCtx [1%N] [[]; [1]] (Some [1]))], s).
Proof.
  exact (proj2 (proj2 (C51_bfs ex_lazy_gv ex_lazy_into ex_lazy_poll [] 3 3 3 (le_n 3) (le_n 3))) ltac:(vm_compute; discriminate)).
Qed.
Example C51_postorder_endless_example : endless_first_children ex_lazy_gv ex_lazy_into ex_lazy_poll [].
Proof. exists (fun i => repeat 0 i); split; [reflexivity|intros i; reflexivity]. Qed.
Example C52_bfs_example : forall s, after (lbfs_next ex_lazy_gv ex_lazy_into ex_lazy_poll) 3 (lbfs_new []) s -> rev (lb_log s) = [[]; [0]; [1]].
Proof. exact (proj1 (C52_bfs ex_lazy_gv ex_lazy_into ex_lazy_poll [] 3 3 3 (le_n 3) (le_n 3))). Qed.

(** Children iterators that go on after [None]: node 0 has the children 1 and 2; its iterator then gives [None], and then 1 again. *)
Definition ex_again_gv (n : nat) : nat * list (option nat) := (10 * n, match n with 0 => [Some 1; Some 2; None; Some 1] | _ => [None; Some 0] end).
Definition ex_again_poll (it : list (option nat)) : option nat * list (option nat) :=
  match it with x :: rest => (x, rest) | [] => (None, []) end.
Example C51_whole_example : whole ex_again_gv (fun l => l) ex_again_poll 0 (TNode 0 [TNode 1 []; TNode 2 []]).
Proof.
  constructor; eapply wholes_more; [reflexivity|constructor; eapply wholes_end; reflexivity|].
  eapply wholes_more; [reflexivity|constructor; eapply wholes_end; reflexivity|eapply wholes_end; reflexivity].
Qed.
Example C52_postorder_example : forall s,
  after (lpost_next ex_again_gv (fun l => l) ex_again_poll) 1 (lpost_new 0) s -> Permutation (lt_log s) [1; 0].
Proof. exact (proj1 (C52_postorder ex_again_gv (fun l => l) ex_again_poll 0 _ 1 C51_whole_example)). Qed.

(** A tree with no bottom on whose left there is one: the children of an odd number are none, those of an even [n] are [n + 1], [n + 2], [n + 4], [n + 6] and so on. *)
Definition ex_edge_gv (n : nat) : nat * nat := (n, n).
Definition ex_edge_into (c : nat) : option (nat * bool) := if Nat.even c then Some (c, true) else None.
Definition ex_edge_poll (it : option (nat * bool)) : option nat * option (nat * bool) :=
  match it with
  | None => (None, None)
  | Some (c, true) => (Some (c + 1), Some (c, false))
  | Some (c, false) => (Some (c + 2), Some (c + 2, false))
  end.
Example C51_postorder_example : exists s,
  calls (lpost_next ex_edge_gv ex_edge_into ex_edge_poll) 1 (lpost_new 0) ⇓ Ok ([Some 1], s).
Proof.
  refine (proj1 (C51_postorder ex_edge_gv ex_edge_into ex_edge_poll 0 1 2 2 _)).
  repeat constructor.
Qed.
Example C52_postorder_cut_example : forall s,
  after (lposta_next ex_edge_gv ex_edge_into ex_edge_poll) 1 (lpost_new 0) s -> Permutation (lt_log s) [1; 0].
Proof.
  refine (proj1 (proj2 (C52_postorder_cut ex_edge_gv ex_edge_into ex_edge_poll 0 1 2 2 _))).
  repeat constructor.
Qed.

(** A binary tree with a bottom on the left only: an odd number has no children, an even [n] has the children [n + 1] and [n + 2]. *)
Definition ex_comb_gv (n : nat) : nat * (option nat * option nat) := (n, if Nat.even n then (Some (n + 1), Some (n + 2)) else (None, None)).
Example C51_binary_postorder_example : exists s, calls (lpostc_next ex_comb_gv pair_iter prec_scan) 2 (lpostc_new 0 []) ⇓
  Ok ([Some (mkCtx [0%N] [0; 1] (Some (None, None))); Some (mkCtx [1%N; 0%N] [0; 2; 3] (Some (None, None)))], s).
Proof. refine (C51_binary_postorder ex_comb_gv 0 2 3 _); repeat constructor. Qed.
Example C52_binary_postorder_example : forall s, after (lpostc_next ex_comb_gv pair_iter prec_scan) 2 (lpostc_new 0 []) s -> Permutation (ltc_log s) [1; 3; 0; 2].
Proof. refine (C52_binary_postorder ex_comb_gv 0 2 3 _); repeat constructor. Qed.

(** A binary tree with no bottom: the children of [n] are [2n+1] and, when [n] is even, [2n+2]. *)
Definition ex_heap_gv (n : nat) : nat * (option nat * option nat) := (n, (Some (2 * n + 1), if Nat.even n then Some (2 * n + 2) else None)).
Example C51_binary_example : exists s, calls (lbfsc_next ex_heap_gv pair_iter bfsc_skip) 4 (lbfsc_new ex_heap_gv 0 []) ⇓
  Ok ([Some (mkCtx [] [0] (Some (Some 1, Some 2))); Some (mkCtx [0%N] [0; 1] (Some (Some 3, None)));
       Some (mkCtx [1%N] [0; 2] (Some (Some 5, Some 6))); Some (mkCtx [0%N; 0%N] [0; 1; 3] (Some (Some 7, None)))], s).
Proof. exact (proj1 (proj2 (C51_binary ex_heap_gv 0 4 4 (le_n 4)))). Qed.
Example C52_binary_example : forall s, after (lprec_next ex_heap_gv pair_iter prec_scan) 3 (lprec_new 0 []) s -> rev (lpc_log s) = [0; 1; 3].
Proof. exact (proj1 (C52_binary ex_heap_gv 0 3 3 (le_n 3))). Qed.

Print Assumptions C51_preorder.
Print Assumptions C51_bfs.
Print Assumptions C51_whole.
Print Assumptions C51_postorder.
Print Assumptions C51_postorder_endless.
Print Assumptions C51_binary.
Print Assumptions C51_binary_postorder.
Print Assumptions C52_preorder.
Print Assumptions C52_bfs.
Print Assumptions C52_postorder.
Print Assumptions C52_postorder_cut.
Print Assumptions C52_exactly_once.
Print Assumptions C52_binary.
Print Assumptions C52_binary_postorder.
