(** * Runs with context that start on a path, for collections of trees that are made while they are traversed. *)
From Verif Require Import Prelim PrelimFacts Spec SpecFacts SpecObs SpecEdit SpecLazy SpecStream ModelNode NodeFacts ModelPre ModelPost ModelBfs ModelLazy ModelStream ModelStreamLazy FuelMono.
From Verif Require Import Slots ProofsPlain ProofsPre ProofsPost ProofsBfs ProofsExact ProofsTree ProofsEdit ProofsOwnMore ProofsLazy ProofsLazyCtx ProofsLazyInst ProofsLazyRun ProofsLazyBin ProofsLazyDeep ProofsColl ProofsStream.

Section RunsAt.
  Context {Nd V C It T C0 : Type}.
  Variable gv : Nd -> V * C.
  Variable into_iter : C -> It.
  Variable scan : It -> list N -> Res (option Nd * It * list N).
  Variable fetch : It -> N -> Res (option Nd * It * N).
  Variable gv0 : T -> Nd * C0.
  Variable into0 : C0 -> list (option T).
  Local Notation lab := (nval gv0).
  Variable U : nat -> It -> list (option T) -> Prop.
  Local Notation Uc := (Uc gv into_iter gv0 into0 U).
  Hypothesis U_le : forall m it l, U (S m) it l -> U m it l.
  Hypothesis U_scan : forall m it l path found l' path', U (S m) it l -> prec_scan l path = Ok (found, l', path') ->
    exists it', scan it path = Ok (option_map lab found, it', path') /\ (forall t, found = Some t -> U m it' l' /\ Uc m t).
  Hypothesis U_fetch : forall m it l k found l' k', U (S m) it l -> bfsc_skip l k = Ok (found, l', k') ->
    exists it', fetch it k = Ok (option_map lab found, it', k') /\ (forall t, found = Some t -> U m it' l' /\ Uc m t).
  Variable t : T.
  Variable k : nat.
  Hypothesis Ht : Uc k t.
  Variable P : list N.
  Local Notation outs l := (map (nth_error l) (seq 0 k)).
  Variable L : list (pos T).
  Variable L' : list (pos Nd).
  Hypothesis HL : map (pos_map lab) L = L'.

  Lemma run_prec_at s1 : calls (precb_next gv0 into0) k (prec_new t P) ⇓ Ok (outs (map (context_at gv0) L), s1) ->
    exists s, calls (lprec_next gv into_iter scan) k (lprec_new (lab t) P) ⇓ Ok (outs (map (context_at gv) L'), s).
  Proof.
    intros Hc.
    unshelve epose proof (follow _ _ _ (fun F => F) _ (prec_follow gv into_iter scan gv0 into0 U U_le U_scan) (more_lprec gv into_iter scan) k (prec_new t P) (lprec_new (lab t) P) _ _ _ Hc) as (s2 & Hc2 & _).
    - split; [reflexivity|]; split; [constructor|]; split; [reflexivity|]; split; [reflexivity|]; split; [reflexivity|]; split; [intros u [= <-]; exact Ht|reflexivity].
    - rewrite (outs_ctx gv gv0 k L L' HL) in Hc2; exists s2; exact Hc2.
  Qed.

  Lemma run_bfsc_at s1 : calls (bfscb_next gv0 into0) k (bfsc_new (nval gv0 t) (nkids gv0 t) P) ⇓ Ok (outs (map (context_at gv0) L), s1) ->
    exists s, calls (lbfsc_next gv into_iter fetch) k (lbfsc_new gv (lab t) P) ⇓ Ok (outs (map (context_at gv) L'), s).
  Proof.
    intros Hc.
    unshelve epose proof (follow _ _ _ (fun F => F) _ (bfsc_follow gv into_iter fetch gv0 into0 U U_le U_fetch) (more_lbfsc gv into_iter fetch) k (bfsc_new (nval gv0 t) (nkids gv0 t) P) (lbfsc_new gv (lab t) P) _ _ _ Hc) as (s2 & Hc2 & HR).
    - unfold bfsc_new, lbfsc_new; rewrite (gv_eq gv (lab t)).
      split; [split; [reflexivity|split; [reflexivity|split; [reflexivity|split; [reflexivity|split; reflexivity]]]]|]; split; [constructor|].
      split; [split; [reflexivity|exact Ht]|split; [reflexivity|split; reflexivity]].
    - rewrite (outs_ctx gv gv0 k L L' HL) in Hc2; exists s2; exact Hc2.
  Qed.

  Section Post.
    Variable W : nat -> list It -> list (list (option T)) -> Prop.
    Hypothesis W_shape : forall m q2 q1, W m q2 q1 -> length q2 = length q1.
    Hypothesis W_nil : forall m, W m [] [].
    Hypothesis W_le : forall m q2 q1, W (S m) q2 q1 -> W m q2 q1.
    Hypothesis W_scan : forall m it q2 l q1 path found l' path', W (S m) (it :: q2) (l :: q1) -> prec_scan l path = Ok (found, l', path') ->
      exists it', scan it path = Ok (option_map lab found, it', path') /\
        match found with
        | Some t => W (S m) (into_iter (nkids gv (lab t)) :: it' :: q2) (into0 (nkids gv0 t) :: l' :: q1)
        | None => W m q2 q1
        end.
    Hypothesis Hw : W k [into_iter (nkids gv (lab t))] [into0 (nkids gv0 t)].

    Lemma run_postc_at s1 : calls (postcb_next gv0 into0) k (postc_new t P) ⇓ Ok (outs (map (context_at gv0) L), s1) ->
      exists s, calls (lpostc_next gv into_iter scan) k (lpostc_new (lab t) P) ⇓ Ok (outs (map (context_at gv) L'), s).
    Proof.
      intros Hc.
      unshelve epose proof (follow _ _ _ (fun F => F) _ (postc_follow gv into_iter scan gv0 into0 W W_shape W_nil W_le W_scan) (more_lpostc gv into_iter scan) k (postc_new t P) (lpostc_new (lab t) P) _ _ _ Hc) as (s2 & Hc2 & Hlog & _).
      - split; [constructor|]; split; [reflexivity|]; split; [reflexivity|]; split; [reflexivity|]; split; [reflexivity|]; split; [reflexivity|split; [reflexivity|exact Hw]].
      - rewrite (outs_ctx gv gv0 k L L' HL) in Hc2; exists s2; exact Hc2.
    Qed.
  End Post.
End RunsAt.

Section Cuts.
  Context {Nd V C It : Type}.
  Variable gv : Nd -> V * C.
  Variable into_iter : C -> It.
  Variable poll : It -> option Nd * It.

  Lemma pos_lab_at (o : forall X, tree X -> list X) (t : tree Nd) i : orderly o ->
    map (pos_map (nval tree_gvc)) (o _ (annotate [i] [] (subtrees t))) = map (in_tree i) (o _ (positions t)).
  Proof.
    intros Ho; rewrite <- !Ho; pose proof (annotate_map (nval tree_gvc) (subtrees t) [i] []) as E; cbn [map] in E; rewrite <- E.
    rewrite (tree_map_ext _ root) by apply nval_tree; rewrite subtrees_root; f_equal; apply annotate_prefix.
  Qed.

  Lemma prec_at n k i : (N.of_nat k <= usize_max)%N ->
    gives (lprec_next gv into_iter (nary_scan poll)) k (lprec_new n [N.of_nat i]) (map (fun p => context_at gv (in_tree i p)) (preorder (positions (cut gv into_iter poll k k n)))).
  Proof.
    intros Hs m Hm; pose proof (upto_cut gv into_iter poll m k k n Hm Hm) as Hu; pose proof (small_cut gv into_iter poll k Hs k n) as Hsm.
    pose proof (root_cut gv into_iter poll k k n) as Hr; set (t := cut gv into_iter poll k k n) in *.
    destruct (precb_yields tree_gvc (map Some) _ _ [i] (slot_law_nary tree_gvc subtrees node_tree_tree) (small_law_nary tree_gvc subtrees node_tree_tree) t (small_tree_nodes t Hsm) m) as (s1 & Hc).
    destruct (run_prec_at gv into_iter (nary_scan poll) tree_gvc (map Some) _ (Us_le' _ (uptos_le gv into_iter poll)) (Us_scan gv into_iter poll _ (uptos_poll gv into_iter poll)) t m (Us_of gv into_iter _ m t Hu) [N.of_nat i] _ _ (pos_lab_at (@preorder) t i orderly_pre) s1 Hc) as (s & H1).
    rewrite nval_tree, Hr, map_map in H1; exists s; exact H1.
  Qed.
  Lemma bfsc_at n k i : (N.of_nat k <= usize_max)%N ->
    gives (lbfsc_next gv into_iter (nary_fetch poll)) k (lbfsc_new gv n [N.of_nat i]) (map (fun p => context_at gv (in_tree i p)) (bfs (positions (cut gv into_iter poll k k n)))).
  Proof.
    intros Hs m Hm; pose proof (upto_cut gv into_iter poll m k k n Hm Hm) as Hu; pose proof (small_cut gv into_iter poll k Hs k n) as Hsm.
    pose proof (root_cut gv into_iter poll k k n) as Hr; set (t := cut gv into_iter poll k k n) in *.
    destruct (bfscb_yields tree_gvc (map Some) _ _ [i] t (slot_law_nary tree_gvc subtrees node_tree_tree) (small_law_nary tree_gvc subtrees node_tree_tree) (small_tree_nodes t Hsm) m) as (s1 & Hc).
    destruct (run_bfsc_at gv into_iter (nary_fetch poll) tree_gvc (map Some) _ (Us_le' _ (uptos_le gv into_iter poll)) (Us_fetch gv into_iter poll _ (uptos_poll gv into_iter poll)) t m (Us_of gv into_iter _ m t Hu) [N.of_nat i] _ _ (pos_lab_at (@bfs) t i orderly_bfs) s1 Hc) as (s & H1).
    rewrite nval_tree, Hr, map_map in H1; exists s; exact H1.
  Qed.
  Lemma postc_at n k d b i : (N.of_nat b <= usize_max)%N -> Forall (uncut gv into_iter poll d b) (firstn k (postorder (positions (cut gv into_iter poll d b n)))) ->
    gives (lpostc_next gv into_iter (nary_scan poll)) k (lpostc_new n [N.of_nat i]) (map (fun p => context_at gv (in_tree i p)) (postorder (positions (cut gv into_iter poll d b n)))).
  Proof.
    intros Hs Hk m Hm; assert (Hd : Forall (uncut gv into_iter poll d b) (firstn m (postorder (positions (cut gv into_iter poll d b n))))).
    { rewrite <- (firstn_skipn m (firstn k _)), firstn_firstn, Nat.min_l in Hk by exact Hm; apply Forall_app in Hk; apply Hk. }
    apply deep_cut in Hd; pose proof (small_cut gv into_iter poll b Hs d n) as Hsm.
    pose proof (root_cut gv into_iter poll d b n) as Hr; rewrite <- Hr in Hd at 1; set (t := cut gv into_iter poll d b n) in *.
    destruct (postcb_yields tree_gvc (map Some) _ _ [i] (slot_law_nary tree_gvc subtrees node_tree_tree) (small_law_nary tree_gvc subtrees node_tree_tree) t (small_tree_nodes t Hsm) m) as (s1 & Hc).
    destruct (run_postc_at gv into_iter (nary_scan poll) tree_gvc (map Some) t m [N.of_nat i] _ _ (pos_lab_at (@postorder) t i orderly_post) (Ws (Wdeep gv into_iter poll))) with (s1 := s1) as (s & H1).
    - intros m' q2 q1 (ls & -> & H); rewrite map_length; revert H; apply Wdeep_shape.
    - intros m'; exists []; split; [reflexivity|apply Wdeep_nil].
    - intros m' q2 q1 (ls & -> & H); exists ls; split; [reflexivity|revert H; apply Wdeep_le].
    - apply Ws_scan, Wdeep_poll.
    - rewrite nval_tree; exists [subs t]; split; [destruct t; reflexivity|exact Hd].
    - exact Hc.
    - rewrite nval_tree, Hr, map_map in H1; exists s; exact H1.
  Qed.
End Cuts.

Section BCuts.
  Context {Nd V : Type}.
  Variable gvcb : Nd -> V * (option Nd * option Nd).

  Lemma bpos_lab_at (o : forall X, tree X -> list X) (t : btree Nd) i : orderly o ->
    map (pos_map (nval btree_gvcb)) (o _ (flat (bannotate [i] [] (bsubtrees t)))) = map (in_tree i) (o _ (flat (bpositions t))).
  Proof.
    intros Ho; rewrite <- !Ho, <- !flat_btree_map; pose proof (bannotate_map (nval btree_gvcb) (bsubtrees t) [i] []) as E; cbn [map] in E; rewrite <- E.
    rewrite (btree_map_ext _ broot) by apply nval_btree; rewrite bsubtrees_root; do 2 f_equal; apply bannotate_prefix.
  Qed.

  Lemma precb_at n k i :
    gives (lprec_next gvcb pair_iter prec_scan) k (lprec_new n [N.of_nat i]) (map (fun p => context_at gvcb (in_tree i p)) (preorder (flat (bpositions (bcut gvcb k n))))).
  Proof.
    intros m Hm; pose proof (bupto_bcut gvcb m k n Hm) as Hu; pose proof (broot_bcut gvcb k n) as Hr; set (t := bcut gvcb k n) in *.
    destruct (precb_yields btree_gvcb pair_iter _ _ [i] (slot_law_binary btree_gvcb bsubtrees node_btree_btree) (small_law_binary btree_gvcb) t I m) as (s1 & Hc).
    destruct (run_prec_at gvcb pair_iter prec_scan btree_gvcb pair_iter _ (Rs_le _ (bupto_le gvcb)) (Rs_scan gvcb _ (bupto_le gvcb) (bupto_node gvcb)) t m (Rs_of gvcb _ m t Hu) [N.of_nat i] _ _ (bpos_lab_at (@preorder) t i orderly_pre) s1 Hc) as (s & H1).
    rewrite nval_btree, Hr, map_map in H1; exists s; exact H1.
  Qed.
  Lemma bfscb_at n k i :
    gives (lbfsc_next gvcb pair_iter bfsc_skip) k (lbfsc_new gvcb n [N.of_nat i]) (map (fun p => context_at gvcb (in_tree i p)) (bfs (flat (bpositions (bcut gvcb k n))))).
  Proof.
    intros m Hm; pose proof (bupto_bcut gvcb m k n Hm) as Hu; pose proof (broot_bcut gvcb k n) as Hr; set (t := bcut gvcb k n) in *.
    destruct (bfscb_yields btree_gvcb pair_iter _ _ [i] t (slot_law_binary btree_gvcb bsubtrees node_btree_btree) (small_law_binary btree_gvcb) I m) as (s1 & Hc).
    destruct (run_bfsc_at gvcb pair_iter bfsc_skip btree_gvcb pair_iter _ (Rs_le _ (bupto_le gvcb)) (Rs_fetch gvcb _ (bupto_le gvcb) (bupto_node gvcb)) t m (Rs_of gvcb _ m t Hu) [N.of_nat i] _ _ (bpos_lab_at (@bfs) t i orderly_bfs) s1 Hc) as (s & H1).
    rewrite nval_btree, Hr, map_map in H1; exists s; exact H1.
  Qed.
  Lemma postcb_at n k d i : Forall (fun p => length (pos_path p) < d) (firstn k (postorder (flat (bpositions (bcut gvcb d n))))) ->
    gives (lpostc_next gvcb pair_iter prec_scan) k (lpostc_new n [N.of_nat i]) (map (fun p => context_at gvcb (in_tree i p)) (postorder (flat (bpositions (bcut gvcb d n))))).
  Proof.
    intros Hk m Hm; assert (Hd : Forall (fun p => length (pos_path p) < d) (firstn m (postorder (flat (bpositions (bcut gvcb d n)))))).
    { rewrite <- (firstn_skipn m (firstn k _)), firstn_firstn, Nat.min_l in Hk by exact Hm; apply Forall_app in Hk; apply Hk. }
    apply bdeep_cut in Hd; pose proof (broot_bcut gvcb d n) as Hr; rewrite <- Hr in Hd at 1; set (t := bcut gvcb d n) in *.
    destruct (postcb_yields btree_gvcb pair_iter _ _ [i] (slot_law_binary btree_gvcb bsubtrees node_btree_btree) (small_law_binary btree_gvcb) t I m) as (s1 & Hc).
    destruct (run_postc_at gvcb pair_iter prec_scan btree_gvcb pair_iter t m [N.of_nat i] _ _ (bpos_lab_at (@postorder) t i orderly_post) _ (Wbdeep_shape gvcb) (Wbdeep_nil gvcb) (Wbdeep_le gvcb) (Wbdeep_scan gvcb)) with (s1 := s1) as (s & H1).
    - rewrite nval_btree; destruct t; exact Hd.
    - exact Hc.
    - rewrite nval_btree, Hr, map_map in H1; exists s; exact H1.
  Qed.
End BCuts.

Lemma scollc_all_gives {Src T S A} (poll : Src -> option T * Src) (new : T -> list N -> S) (next : nat -> S -> Res (option A * S)) (get : S -> option A)
  (Hget : forall f s o s', next f s = Ok (o, s') -> get s' = o) (L : nat -> T -> list A) k c : (N.of_nat k <= usize_max)%N ->
  (forall i t, In (Some t) (polls poll k c) -> L i t <> [] /\ gives next k (new t [N.of_nat i]) (L i t)) ->
  goes_over poll L (scollc_next poll new next get) scc_asked c (mkScc c usize_max None []) k.
Proof.
  intros Hk H; apply scollc_all; [exact Hget|exact Hk|]; unfold cgood; revert H; generalize (polls poll k c) 0; intros os.
  induction os as [|o os IH]; intros x H; cbn [mapi]; constructor; [|apply IH; intros i t Ht; apply H; right; exact Ht].
  destruct o as [t|]; [apply H; left; reflexivity|exact I].
Qed.

(** A tree whose iterator never comes back. *)
Lemma scoll_stuck {Src T S A} (poll : Src -> option T * Src) (new : T -> S) (next : nat -> S -> Res (option A * S)) c c' t :
  poll c = (Some t, c') -> (forall fuel, next fuel (new t) = OutOfFuel) -> forall fuel, scoll_next poll new next fuel (scoll_new c) = OutOfFuel.
Proof.
  intros Hc Ht [|[|F]]; [reflexivity| |]; unfold scoll_next; cbn [loop]; unfold scoll_body at 1; cbn [scoll_new sc_cur]; unfold scoll_next_tree at 1; cbn [scoll_new sc_source]; rewrite Hc; cbn [bindR]; [reflexivity|].
  unfold scoll_body at 1; cbn [sc_cur]; rewrite Ht; reflexivity.
Qed.
Lemma scollc_stuck {Src T S A} (poll : Src -> option T * Src) (new : T -> list N -> S) (next : nat -> S -> Res (option A * S)) (get : S -> option A) c c' t :
  poll c = (Some t, c') -> (forall fuel P, next fuel (new t P) = OutOfFuel) -> forall fuel, scollc_next poll new next get fuel (mkScc c usize_max None []) = OutOfFuel.
Proof.
  intros Hc Ht [|[|F]]; [reflexivity| |]; unfold scollc_next, scollc_advance; cbn [loop]; unfold scollc_body at 1; cbn [scc_cur]; unfold scollc_next_tree at 1; cbn [scc_source]; rewrite Hc; cbn [bindR]; [reflexivity|].
  unfold scollc_body at 1; cbn [scc_cur]; rewrite Ht; reflexivity.
Qed.
