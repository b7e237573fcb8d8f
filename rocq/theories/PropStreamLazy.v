(** * C57: contexts, and postorder, over collections of trees that are made while they are traversed

    Neither the collection nor the trees need to have an end.  [goes_over] (SpecStream) says what [k] calls of [next()] give and how often the
    collection was asked for a tree; [cut k k t] (SpecLazy) is the tree of [t] cut off below depth [k] and after [k] children, and
    [in_tree i p] is the position [p] with the number [i] of its tree, counted over all answers of the collection, in front of its path. *)
From Verif Require Import Prelim PrelimFacts Spec SpecFacts SpecObs SpecLazy SpecStream ModelNode ModelBfs ModelPre ModelPost ModelIn ModelLazy ModelLazyIn ModelStream ModelStreamLazy.
From Verif Require Import NodeFacts Slots ProofsPlain ProofsTree ProofsColl ProofsStream ProofsLazyBin ProofsLazyInRun ProofsStreamLazy ProofsStreamLazyIn PropStream PropLazy PropLazyIn.

(** Every context comes with the number of its tree and with its path, and ancestors of its own tree only. *)
Theorem C57_endless_trees_context : forall Nd V C It (gv : Nd -> V * C) (into_iter : C -> It) (pollk : It -> option Nd * It) Src (poll : Src -> option Nd * Src) c k,
  (N.of_nat k <= usize_max)%N ->
  goes_over poll (fun i t => map (fun p => context_at gv (in_tree i p)) (preorder (positions (cut gv into_iter pollk k k t))))
    (lprec_stream_next poll gv into_iter pollk) scc_asked c (mkScc c usize_max None []) k /\
  goes_over poll (fun i t => map (fun p => context_at gv (in_tree i p)) (bfs (positions (cut gv into_iter pollk k k t))))
    (lbfsc_stream_next poll gv into_iter pollk) scc_asked c (mkScc c usize_max None []) k.
Proof.
  intros Nd V C It gv into_iter pollk Src poll c k Hk; split; apply scollc_all_gives; try exact Hk.
  - intros f s o s'; apply (bind_get (lprec_advance gv into_iter (nary_scan pollk)) lprec_get).
  - intros i t _; split; [apply stream_pre_ne|apply prec_at, Hk].
  - intros f s o s'; apply (bind_get (lbfsc_advance gv into_iter (nary_fetch pollk)) lbfsc_get).
  - intros i t _; split; [apply stream_bfs_ne|apply bfsc_at, Hk].
Qed.
Print Assumptions C57_endless_trees_context.

Theorem C57_endless_binary_trees_context : forall Nd V (gvcb : Nd -> V * (option Nd * option Nd)) Src (poll : Src -> option Nd * Src) c k,
  (N.of_nat k <= usize_max)%N ->
  goes_over poll (fun i t => map (fun p => context_at gvcb (in_tree i p)) (preorder (flat (bpositions (bcut gvcb k t)))))
    (lprecb_stream_next poll gvcb) scc_asked c (mkScc c usize_max None []) k /\
  goes_over poll (fun i t => map (fun p => context_at gvcb (in_tree i p)) (bfs (flat (bpositions (bcut gvcb k t)))))
    (lbfscb_stream_next poll gvcb) scc_asked c (mkScc c usize_max None []) k.
Proof.
  intros Nd V gvcb Src poll c k Hk; split; apply scollc_all_gives; try exact Hk.
  - intros f s o s'; apply (bind_get (lprec_advance gvcb pair_iter prec_scan) lprec_get).
  - intros i t _; split; [apply stream_pre_ne|apply precb_at].
  - intros f s o s'; apply (bind_get (lbfsc_advance gvcb pair_iter bfsc_skip) lbfsc_get).
  - intros i t _; split; [apply stream_bfs_ne|apply bfscb_at].
Qed.
Print Assumptions C57_endless_binary_trees_context.

(** In postorder the trees that the collection gives must be finite where the first [k] calls look ([uncut], as in C51); behind that they may be endless. *)
Theorem C57_endless_trees_postorder : forall Nd V C It (gv : Nd -> V * C) (into_iter : C -> It) (pollk : It -> option Nd * It) Src (poll : Src -> option Nd * Src) c k d b,
  (forall t, In (Some t) (polls poll k c) -> Forall (uncut gv into_iter pollk d b) (firstn k (postorder (positions (cut gv into_iter pollk d b t))))) ->
  goes_over poll (fun _ t => map (nval gv) (postorder (cut gv into_iter pollk d b t))) (lpost_stream_next poll gv into_iter pollk) sc_asked c (scoll_new c) k.
Proof.
  intros Nd V C It gv into_iter pollk Src poll c k d b H.
  apply (scoll_all poll _ _ (fun t => map (nval gv) (postorder (cut gv into_iter pollk d b t)))), Forall_forall; intros [t|] Ht; [|exact I].
  split; [apply stream_post_ne|]; intros i Hi; apply (C51_postorder gv into_iter pollk t i d b).
  specialize (H t Ht); rewrite <- (firstn_skipn i (firstn k _)), firstn_firstn, Nat.min_l in H by exact Hi; apply Forall_app in H; apply H.
Qed.
Print Assumptions C57_endless_trees_postorder.

Theorem C57_endless_trees_postorder_context : forall Nd V C It (gv : Nd -> V * C) (into_iter : C -> It) (pollk : It -> option Nd * It) Src (poll : Src -> option Nd * Src) c k d b,
  (N.of_nat k <= usize_max)%N -> (N.of_nat b <= usize_max)%N ->
  (forall t, In (Some t) (polls poll k c) -> Forall (uncut gv into_iter pollk d b) (firstn k (postorder (positions (cut gv into_iter pollk d b t))))) ->
  goes_over poll (fun i t => map (fun p => context_at gv (in_tree i p)) (postorder (positions (cut gv into_iter pollk d b t))))
    (lpostc_stream_next poll gv into_iter pollk) scc_asked c (mkScc c usize_max None []) k.
Proof.
  intros Nd V C It gv into_iter pollk Src poll c k d b Hk Hb H; apply scollc_all_gives; [|exact Hk|].
  - intros f s o s'; apply (bind_get (lpostc_advance gv into_iter (nary_scan pollk)) lpostc_get).
  - intros i t Ht; split; [apply stream_post_ne|apply postc_at; auto].
Qed.
Print Assumptions C57_endless_trees_postorder_context.

(** Binary trees: the first [k] positions in the order must lie above the depth [d] of the cut. *)
Theorem C57_endless_binary_trees_postorder_context : forall Nd V (gvcb : Nd -> V * (option Nd * option Nd)) Src (poll : Src -> option Nd * Src) c k d,
  (N.of_nat k <= usize_max)%N ->
  (forall t, In (Some t) (polls poll k c) -> Forall (fun p => length (pos_path p) < d) (firstn k (postorder (flat (bpositions (bcut gvcb d t)))))) ->
  goes_over poll (fun i t => map (fun p => context_at gvcb (in_tree i p)) (postorder (flat (bpositions (bcut gvcb d t)))))
    (lpostcb_stream_next poll gvcb) scc_asked c (mkScc c usize_max None []) k.
Proof.
  intros Nd V gvcb Src poll c k d Hk H; apply scollc_all_gives; [|exact Hk|].
  - intros f s o s'; apply (bind_get (lpostc_advance gvcb pair_iter prec_scan) lpostc_get).
  - intros i t Ht; split; [apply stream_post_ne|apply postcb_at; auto].
Qed.
Print Assumptions C57_endless_binary_trees_postorder_context.

Theorem C57_endless_trees_inorder : forall Nd V (gvcb : Nd -> V * (option Nd * option Nd)) Src (poll : Src -> option Nd * Src) c k d,
  (forall t, In (Some t) (polls poll k c) -> Forall (fun p => length (pos_path p) < d) (firstn k (inorder (bpositions (bcut gvcb d t))))) ->
  goes_over poll (fun _ t => map (nval gvcb) (inorder (bcut gvcb d t))) (lin_stream_next poll gvcb) sc_asked c (scoll_new c) k.
Proof.
  intros Nd V gvcb Src poll c k d H.
  apply (scoll_all poll _ _ (fun t => map (nval gvcb) (inorder (bcut gvcb d t)))), Forall_forall; intros [t|] Ht; [|exact I].
  split; [apply stream_in_ne|]; intros i Hi; apply (C51_inorder gvcb t i d).
  specialize (H t Ht); rewrite <- (firstn_skipn i (firstn k _)), firstn_firstn, Nat.min_l in H by exact Hi; apply Forall_app in H; apply H.
Qed.
Print Assumptions C57_endless_trees_inorder.

(** Contexts in inorder, of borrowed trees and of owned ones, which have no children in them. *)
Theorem C57_endless_trees_inorder_context : forall Nd V (gvcb : Nd -> V * (option Nd * option Nd)) Src (poll : Src -> option Nd * Src) c k d,
  (N.of_nat k <= usize_max)%N ->
  (forall t, In (Some t) (polls poll k c) -> Forall (fun p => length (pos_path p) < d) (firstn k (inorder (bpositions (bcut gvcb d t))))) ->
  goes_over poll (fun i t => map (fun p => context_at gvcb (in_tree i p)) (inorder (bpositions (bcut gvcb d t))))
    (linc_stream_next poll gvcb) scc_asked c (mkScc c usize_max None []) k /\
  goes_over poll (fun i t => map (fun p => no_children (context_at gvcb (in_tree i p))) (inorder (bpositions (bcut gvcb d t))))
    (linco_stream_next poll gvcb) scc_asked c (mkScc c usize_max None []) k.
Proof.
  intros Nd V gvcb Src poll c k d Hk H; split; apply scollc_all_gives; try exact Hk.
  - intros f s o s'; apply (bind_get (linc_advance gvcb) (fun s => inc_get (snd s))).
  - intros i t Ht; split; [apply stream_in_ne|apply inc_at; auto].
  - intros f s o s'; apply (bind_get (linco_advance gvcb) (fun s => inco_get (snd s))).
  - intros i t Ht; split; [apply stream_in_ne|apply inco_at; auto].
Qed.
Print Assumptions C57_endless_trees_inorder_context.

(** The condition is needed: when the first tree goes down for ever, first child after first child (in postorder) or left child after left child (in inorder), no call of [next()] comes
    back, whatever trees follow. *)
Theorem C57_stuck_postorder : forall Nd V C It (gv : Nd -> V * C) (into_iter : C -> It) (pollk : It -> option Nd * It) Src (poll : Src -> option Nd * Src) c c' t,
  poll c = (Some t, c') -> endless_first_children gv into_iter pollk t -> forall fuel,
  lpost_stream_next poll gv into_iter pollk fuel (scoll_new c) = OutOfFuel /\
  lpostc_stream_next poll gv into_iter pollk fuel (mkScc c usize_max None []) = OutOfFuel.
Proof.
  intros Nd V C It gv into_iter pollk Src poll c c' t Hc (path & <- & Hp) fuel; split.
  - apply (scoll_stuck _ _ _ c c' (path 0) Hc); intros f; apply (endless_post gv into_iter pollk path Hp).
  - apply (scollc_stuck _ _ _ _ c c' (path 0) Hc); intros f P; apply (endless_postc gv into_iter pollk path Hp).
Qed.
Print Assumptions C57_stuck_postorder.
Theorem C57_stuck_inorder : forall Nd V (gvcb : Nd -> V * (option Nd * option Nd)) Src (poll : Src -> option Nd * Src) c c' (path : nat -> Nd),
  poll c = (Some (path 0), c') -> (forall i, fst (snd (gvcb (path i))) = Some (path (S i))) -> forall fuel,
  lin_stream_next poll gvcb fuel (scoll_new c) = OutOfFuel /\
  linc_stream_next poll gvcb fuel (mkScc c usize_max None []) = OutOfFuel /\
  linco_stream_next poll gvcb fuel (mkScc c usize_max None []) = OutOfFuel.
Proof.
  intros Nd V gvcb Src poll c c' path Hc Hp fuel; split; [|split].
  - apply (scoll_stuck _ _ _ c c' (path 0) Hc); intros f; apply (endless_in gvcb path Hp).
  - apply (scollc_stuck _ _ _ _ c c' (path 0) Hc); intros f P; apply (endless_inc gvcb path Hp).
  - apply (scollc_stuck _ _ _ _ c c' (path 0) Hc); intros f P; apply (endless_inco gvcb path Hp).
Qed.
Print Assumptions C57_stuck_inorder.

(** ** Examples *)
(** Every tree of the collection goes down for ever, and so do its children: the node [n] has the children [n + 1], [n + 2], ... . *)
Definition ex_gv (n : nat) : nat * nat := (n, n + 1).
Definition ex_pollk (n : nat) : option nat * nat := (Some n, S n).
Definition ex_trees (n : nat) : option nat * nat := (Some (10 * n), S n).
Example C57_ex_endless_context : exists s l, calls (lprec_stream_next ex_trees ex_gv (fun n => n) ex_pollk) 3 (mkScc 1 usize_max None []) 20 = Ok (l, s) /\
  map (option_map (fun x => (c_path x, c_ancestors x))) l = map (option_map (fun x => (map N.of_nat (fst x), snd x))) [Some ([0], [10]); Some ([0; 0], [10; 11]); Some ([0; 0; 0], [10; 11; 12])] /\ scc_source s = 2.
Proof. vm_compute; do 2 eexists; repeat split; reflexivity. Qed.
(** The first tree has one node only. *)
Definition ex_gvb (n : nat) : nat * (option nat * option nat) := (n, if n =? 10 then (None, None) else (None, Some (S n))).
Example C57_ex_endless_binary : exists s l, calls (lbfscb_stream_next ex_trees ex_gvb) 3 (mkScc 1 usize_max None []) 20 = Ok (l, s) /\
  map (option_map (fun x => (c_path x, c_ancestors x))) l = map (option_map (fun x => (map N.of_nat (fst x), snd x))) [Some ([0], [10]); Some ([1], [20]); Some ([1; 1], [20; 21])] /\ scc_source s = 3.
Proof. vm_compute; do 2 eexists; repeat split; reflexivity. Qed.
(** Postorder: every node of the collection's trees whose number ends in 0 has an endless row of children, and these have none. *)
Definition ex_row (n : nat) : nat * option nat := (n, if n mod 10 =? 0 then Some (S n) else None).
Definition ex_row_poll (o : option nat) : option nat * option nat := (o, option_map (fun n => n + 10 / 5) o).
Definition ex_odd (n : nat) : option nat * nat := (if n =? 2 then Some 20 else if n =? 1 then Some 11 else None, S n).
Example C57_ex_postorder : exists s, calls (lpost_stream_next ex_odd ex_row (fun o => o) ex_row_poll) 3 (scoll_new 1) 20 = Ok ([Some 11; Some 21; Some 23], s) /\ sc_source s = 3.
Proof. vm_compute; eexists; split; reflexivity. Qed.
Example C57_ex_postorder_hyp : forall t, In (Some t) (polls ex_odd 3 1) -> Forall (uncut ex_row (fun o => o) ex_row_poll 3 4) (firstn 3 (postorder (positions (cut ex_row (fun o => o) ex_row_poll 3 4 t)))).
Proof.
  intros t Ht; repeat (destruct Ht as [Ht|Ht]; [try discriminate; injection Ht as <-; cbn; repeat constructor; cbv; lia|]); destruct Ht.
Qed.
Example C57_ex_postorder_context : exists s l, calls (lpostc_stream_next ex_odd ex_row (fun o => o) ex_row_poll) 3 (mkScc 1 usize_max None []) 20 = Ok (l, s) /\
  map (option_map (fun x => (c_path x, c_ancestors x))) l = map (option_map (fun x => (map N.of_nat (fst x), snd x))) [Some ([0], [11]); Some ([1; 0], [20; 21]); Some ([1; 1], [20; 23])] /\ scc_source s = 3.
Proof. vm_compute; do 2 eexists; repeat split; reflexivity. Qed.
(** Binary trees that go down to the right for ever: the nodes in inorder are the left children and the nodes on the way, one after the other. *)
Definition ex_comb (n : nat) : nat * (option nat * option nat) := (n, if n mod 2 =? 0 then (Some (n + 1), Some (n + 2)) else (None, None)).
Example C57_ex_inorder : exists s, calls (lin_stream_next ex_trees ex_comb) 4 (scoll_new 1) 20 = Ok ([Some 11; Some 10; Some 13; Some 12], s) /\ sc_source s = 2.
Proof. vm_compute; eexists; split; reflexivity. Qed.
Example C57_ex_inorder_hyp : forall t, In (Some t) (polls ex_trees 4 1) -> Forall (fun p => length (pos_path p) < 4) (firstn 4 (inorder (bpositions (bcut ex_comb 4 t)))).
Proof.
  intros t Ht; repeat (destruct Ht as [Ht|Ht]; [injection Ht as <-; vm_compute; repeat constructor|]); destruct Ht.
Qed.
(** In postorder: the right children have none of their own from 14 on. *)
Definition ex_two (n : nat) : nat * (option nat * option nat) := (n, if n =? 12 then (Some 13, Some 14) else if n =? 10 then (Some 11, Some 12) else if n <? 20 then (None, None) else (None, Some (S n))).
Definition ex_one (n : nat) : option nat * nat := (if n =? 0 then Some 10 else if n =? 1 then Some 12 else None, S n).
Example C57_ex_binary_postorder : exists s l, calls (lpostcb_stream_next ex_one ex_two) 6 (mkScc 0 usize_max None []) 20 = Ok (l, s) /\
  map (option_map (fun x => (c_path x, c_ancestors x))) l = map (option_map (fun x => (map N.of_nat (fst x), snd x)))
    [Some ([0; 0], [10; 11]); Some ([0; 1; 0], [10; 12; 13]); Some ([0; 1; 1], [10; 12; 14]); Some ([0; 1], [10; 12]); Some ([0], [10]); Some ([1; 0], [12; 13])] /\ scc_source s = 2.
Proof. vm_compute; do 2 eexists; repeat split; reflexivity. Qed.
Example C57_ex_binary_postorder_hyp : forall t, In (Some t) (polls ex_one 6 0) -> Forall (fun p => length (pos_path p) < 4) (firstn 6 (postorder (flat (bpositions (bcut ex_two 4 t))))).
Proof.
  intros t Ht; repeat (destruct Ht as [Ht|Ht]; [try discriminate; injection Ht as <-; vm_compute; repeat constructor|]); destruct Ht.
Qed.
Example C57_ex_inorder_context : exists s l, calls (linc_stream_next ex_one ex_two) 6 (mkScc 0 usize_max None []) 20 = Ok (l, s) /\
  map (option_map (fun x => (c_path x, c_ancestors x))) l = map (option_map (fun x => (map N.of_nat (fst x), snd x)))
    [Some ([0; 0], [10; 11]); Some ([0], [10]); Some ([0; 1; 0], [10; 12; 13]); Some ([0; 1], [10; 12]); Some ([0; 1; 1], [10; 12; 14]); Some ([1; 0], [12; 13])] /\ scc_source s = 2.
Proof. vm_compute; do 2 eexists; repeat split; reflexivity. Qed.
(** The trees of [C57_ex_endless_context] in postorder. *)
Example C57_ex_stuck : endless_first_children ex_gv (fun n => n) ex_pollk 10 /\ forall fuel, lpost_stream_next ex_trees ex_gv (fun n => n) ex_pollk fuel (scoll_new 1) = OutOfFuel.
Proof.
  assert (H : endless_first_children ex_gv (fun n => n) ex_pollk 10) by (exists (fun i => 10 + i); split; [reflexivity|intros i; cbn; f_equal; lia]).
  split; [exact H|intros fuel; exact (proj1 (C57_stuck_postorder _ _ _ _ _ _ _ _ ex_trees 1 2 10 eq_refl H fuel))].
Qed.
