(** * PropAlias: C53, mutable references stay exclusive. *)
From Coq Require Import Permutation.
From Verif Require Import Prelim PrelimFacts Spec SpecObs ModelNode ModelBfs ModelPre ModelPost ModelIn ModelLeaves ModelColl SpecAlias ModelAlias
  ProofsAlias ProofsAliasCtx ProofsAliasPos SpecFacts PropTraversal.

(** ** The plain iterators, and [leaves()] called on them at any moment *)
Theorem C53_plain : forall Nd V (gvc : Nd -> V * list Nd) ncells vcells, takes_apart gvc ncells vcells ->
  forall n h0, NoDup (ncells n ++ h0) ->
  exclusive_items vcells (bfs_next gvc) (bfs_new n) h0 /\
  exclusive_items vcells (pre_next gvc) (pre_new n) h0 /\
  exclusive_items vcells (post_next gvc) (post_new n) h0 /\
  (forall s h, reached_items vcells (bfs_next gvc) (bfs_new n) h0 s h -> exclusive_items vcells (bleaves_next gvc) (bfs_leaves s) h) /\
  (forall s h, reached_items vcells (pre_next gvc) (pre_new n) h0 s h -> exclusive_items vcells (dleaves_next gvc) (pre_leaves s) h) /\
  (forall s h, reached_items vcells (post_next gvc) (post_new n) h0 s h -> exclusive_items vcells (dleaves_next gvc) (post_leaves s) h).
Proof.
  intros Nd V gvc ncells vcells H n h0 H0; pose proof (once_of _ _ H0) as H1.
  assert (Hb : forall x, w_bfs (kn ncells x) (bfs_new n) + cnt x h0 <= 1) by (intros x; specialize (H1 x); unfold w_bfs, bfs_new; cbn [bfs_root bfs_queue wo]; rewrite wsum_nil; unfold kn; lia).
  assert (Hp : forall x, w_pre (kn ncells x) (pre_new n) + cnt x h0 <= 1) by (intros x; specialize (H1 x); unfold w_pre, pre_new; cbn [pre_root pre_stack wo]; rewrite wsum_nil; unfold kn; lia).
  assert (Ht : forall x, w_post (kn ncells x) (kv vcells x) (post_new n) + cnt x h0 <= 1) by (intros x; specialize (H1 x); unfold w_post, post_new; cbn [po_root po_stack po_items wo]; unfold wvs; rewrite !wsum_nil; unfold kn; lia).
  repeat apply conj.
  - exact (conserves_exclusive _ _ _ _ _ (bfs_conserves ncells vcells gvc H) _ _ Hb).
  - exact (conserves_exclusive _ _ _ _ _ (pre_conserves ncells vcells gvc H) _ _ Hp).
  - exact (conserves_exclusive _ _ _ _ _ (post_conserves ncells vcells gvc H) _ _ Ht).
  - intros s h Hr; apply (conserves_exclusive _ _ _ _ _ (bleaves_conserves ncells vcells gvc H)); intros x.
    pose proof (conserves_reached _ _ _ _ _ (bfs_conserves ncells vcells gvc H) _ _ Hb _ _ Hr x); unfold w_bl, w_bfs, bfs_leaves in *; cbn [bl_root bl_old bl_new]; rewrite wsum_nil; lia.
  - intros s h Hr; apply (conserves_exclusive _ _ _ _ _ (dleaves_conserves ncells vcells gvc H)); intros x.
    pose proof (conserves_reached _ _ _ _ _ (pre_conserves ncells vcells gvc H) _ _ Hp _ _ Hr x); unfold w_dl, w_pre, pre_leaves, wvs in *; cbn [dl_root dl_bottom dl_top dl_items]; rewrite !wsum_nil; lia.
  - intros s h Hr; apply (conserves_exclusive _ _ _ _ _ (dleaves_conserves ncells vcells gvc H)); intros x.
    pose proof (conserves_reached _ _ _ _ _ (post_conserves ncells vcells gvc H) _ _ Ht _ _ Hr x); unfold w_dl, w_post, post_leaves, wvs in *; cbn [dl_root dl_bottom dl_top dl_items]; rewrite !wsum_nil; lia.
Qed.
Print Assumptions C53_plain.

(** ** The iterators with ancestors, and [leaves()] called on them at any moment *)
Theorem C53_ancestors : forall Nd V (gvc : Nd -> V * list Nd) ncells vcells, takes_apart gvc ncells vcells ->
  forall n h0, NoDup (ncells n ++ h0) ->
  exclusive_slices vcells (bfsa_next gvc) bfsa_get bfsa_written (bfsa_new gvc n) h0 /\
  exclusive_slices vcells (prea_next gvc) prea_get prea_written (prea_new n) h0 /\
  exclusive_slices vcells (posta_next gvc) posta_get posta_written (post_new n) h0 /\
  (forall s h, reached_slices vcells (bfsa_next gvc) bfsa_get bfsa_written (bfsa_new gvc n) h0 s h ->
    exclusive_slices vcells (baleaves_next gvc) bfsa_get bfsa_written (bfsa_leaves s) h) /\
  (forall s h, reached_slices vcells (prea_next gvc) prea_get prea_written (prea_new n) h0 s h ->
    exclusive_slices vcells (daleaves_next gvc) daleaves_get daleaves_written (prea_leaves s) h) /\
  (forall s h, reached_slices vcells (posta_next gvc) posta_get posta_written (post_new n) h0 s h ->
    exclusive_slices vcells (daleaves_next gvc) daleaves_get daleaves_written (posta_leaves s) h).
Proof.
  intros Nd V gvc ncells vcells H n h0 H0; pose proof (once_of _ _ H0) as H1.
  assert (Hb : forall x, w_bfsa (kn ncells x) (kv vcells x) (bfsa_new gvc n) + cnt x h0 <= 1).
  { intros x; specialize (H1 x); pose proof (k_gvc ncells vcells x gvc H n) as Hg; unfold bfsa_new; destruct (gvc n) as [v c]; unfold w_bfsa, w_dfs; cbn [ba_items ba_cache ba_stack ba_queue fst snd] in *.
    unfold cn_default; rewrite wcn_eq, !wsum_cons, !wsum_nil; cbn [wov]; unfold wd; rewrite wsum_nil; unfold kn at 2 in Hg; lia. }
  assert (Hp : forall x, w_prea (kn ncells x) (kv vcells x) (prea_new n) + cnt x h0 <= 1) by (intros x; specialize (H1 x); unfold w_prea, prea_new, wvs; cbn [pa_root pa_stack pa_items wo]; rewrite !wsum_nil; unfold kn; lia).
  assert (Ht : forall x, w_post (kn ncells x) (kv vcells x) (post_new n) + cnt x h0 <= 1) by (intros x; specialize (H1 x); unfold w_post, post_new; cbn [po_root po_stack po_items wo]; unfold wvs; rewrite !wsum_nil; unfold kn; lia).
  repeat apply conj.
  - exact (conserves_exclusive _ _ _ _ _ (bfsa_conserves ncells vcells gvc H) _ _ Hb).
  - exact (conserves_exclusive _ _ _ _ _ (prea_conserves ncells vcells gvc H) _ _ Hp).
  - exact (conserves_exclusive _ _ _ _ _ (posta_conserves ncells vcells gvc H) _ _ Ht).
  - intros s h Hr; apply (conserves_exclusive _ _ _ _ _ (baleaves_conserves ncells vcells gvc H)); intros x.
    exact (conserves_reached _ _ _ _ _ (bfsa_conserves ncells vcells gvc H) _ _ Hb _ _ Hr x).
  - intros s h Hr; apply (conserves_exclusive _ _ _ _ _ (daleaves_conserves ncells vcells gvc H)); intros x.
    pose proof (conserves_reached _ _ _ _ _ (prea_conserves ncells vcells gvc H) _ _ Hp _ _ Hr x); unfold w_da, w_prea, prea_leaves, wvs in *; cbn [da_root da_items da_old da_new]; rewrite wsum_nil; lia.
  - intros s h Hr; apply (conserves_exclusive _ _ _ _ _ (daleaves_conserves ncells vcells gvc H)); intros x.
    pose proof (conserves_reached _ _ _ _ _ (posta_conserves ncells vcells gvc H) _ _ Ht _ _ Hr x); unfold w_da, w_post, posta_leaves, wvs in *; cbn [da_root da_items da_old da_new]; rewrite wsum_nil; lia.
Qed.
Print Assumptions C53_ancestors.

(** ** The breadth-first and preorder iterators with context, and the owned postorder iterator with context (which shows no children) *)
Lemma bfsc_start_w {Nd V} (gvc : Nd -> V * list Nd) ncells vcells : takes_apart gvc ncells vcells -> forall x n path,
  w_bfsc (kv vcells x) (kn ncells x) (fun c => cnt x (flat_map ncells c)) (bfsc_start gvc n path) <= cnt x (ncells n).
Proof.
  intros H x n path; pose proof (k_gvc ncells vcells x gvc H n) as Hg; unfold bfsc_start; destruct (gvc n) as [v c]; unfold w_bfsc, w_cdfs, bfsc_new; cbn [bc_anc bc_path bc_cache bc_stack bc_queue bc_children fst snd wopt] in *.
  unfold cn_default; rewrite wcn_eq, wsum_cons, !wsum_nil, kn_list; cbn [wov]; unfold wd; rewrite wsum_nil; unfold kn at 2 in Hg; lia.
Qed.
Theorem C53_context : forall Nd V (gvc : Nd -> V * list Nd) ncells vcells, takes_apart gvc ncells vcells ->
  forall n path h0, NoDup (ncells n ++ h0) ->
  exclusive_contexts vcells (flat_map ncells) (bfsc_next gvc) bfsc_get bfsc_written (bfsc_start gvc n path) h0 /\
  exclusive_contexts vcells (flat_map ncells) (prec_next gvc) prec_get prec_written (prec_new n path) h0 /\
  exclusive_contexts vcells nothing (postco_next gvc) postco_get postco_written (postco_new n path) h0.
Proof.
  intros Nd V gvc ncells vcells H n path h0 H0; pose proof (once_of _ _ H0) as H1; repeat apply conj.
  - apply (conserves_exclusive _ _ _ _ _ (bfsc_conserves ncells vcells gvc H)); intros x; specialize (H1 x); pose proof (bfsc_start_w gvc ncells vcells H x n path); lia.
  - apply (conserves_exclusive _ _ _ _ _ (prec_conserves ncells vcells gvc H)); intros x; specialize (H1 x); unfold w_prec, prec_new; cbn [pc_root pc_stack pc_anc pc_children wo wopt]; rewrite !wsum_nil; unfold kn; lia.
  - apply (conserves_exclusive _ _ _ _ _ (postco_conserves ncells vcells gvc H)); intros x; specialize (H1 x); unfold w_postco, postco_new; cbn [pto_root pto_stack pto_anc wo]; rewrite !wsum_nil; unfold kn; lia.
Qed.
Print Assumptions C53_context.

(** ** Binary trees: the inherited iterators are those of [binary_gvc]; contexts show the pair of children *)
Lemma bfscb_start_w {Nd V} (gvcb : Nd -> V * (option Nd * option Nd)) ncells vcells : takes_apart_binary gvcb ncells vcells -> forall x n path,
  w_bfsc (kv vcells x) (fun i => cnt x (ocells ncells i)) (fun c => cnt x (pcells ncells c)) (bfsc_start gvcb n path) <= cnt x (ncells n).
Proof.
  intros H x n path; pose proof (k_gvb ncells vcells gvcb H x n) as Hg; unfold bfsc_start; destruct (gvcb n) as [v c]; unfold w_bfsc, w_cdfs, bfsc_new; cbn [bc_anc bc_path bc_cache bc_stack bc_queue bc_children fst snd wopt] in *.
  unfold cn_default; rewrite wcn_eq, wsum_cons, !wsum_nil; cbn [wov]; unfold wd; rewrite wsum_nil; unfold kn in Hg; lia.
Qed.
Theorem C53_binary : forall Nd V (gvcb : Nd -> V * (option Nd * option Nd)) ncells vcells, takes_apart_binary gvcb ncells vcells ->
  takes_apart (binary_gvc gvcb) ncells vcells /\
  forall n path h0, NoDup (ncells n ++ h0) ->
  exclusive_items vcells (in_next gvcb) (in_new n) h0 /\
  (forall s h l, reached_items vcells (in_next gvcb) (in_new n) h0 s h -> in_leaves s = Ok l ->
    exclusive_items vcells (dleaves_next (binary_gvc gvcb)) l h) /\
  exclusive_slices vcells (ina_next gvcb) ina_get ina_written (ina_new n) h0 /\
  (forall s h, reached_slices vcells (ina_next gvcb) ina_get ina_written (ina_new n) h0 s h ->
    exclusive_slices vcells (daleaves_next (binary_gvc gvcb)) daleaves_get daleaves_written (ina_leaves s) h) /\
  exclusive_contexts vcells (pcells ncells) (bfscb_next gvcb pair_iter) bfsc_get bfsc_written (bfsc_start gvcb n path) h0 /\
  exclusive_contexts vcells (pcells ncells) (precb_next gvcb pair_iter) prec_get prec_written (prec_new n path) h0 /\
  exclusive_contexts vcells nothing (postcob_next gvcb pair_iter) postco_get postco_written (postco_new n path) h0 /\
  exclusive_contexts vcells nothing (inco_next gvcb) inco_get inco_written (inco_new n path) h0.
Proof.
  intros Nd V gvcb ncells vcells H; split; [apply takes_apart_of_binary, H|]; intros n path h0 H0; pose proof (once_of _ _ H0) as H1.
  pose proof (takes_apart_of_binary _ _ _ H) as Hn.
  assert (Hi : forall x, w_in (kn ncells x) (kv vcells x) (in_new n) + cnt x h0 <= 1) by (intros x; specialize (H1 x); unfold w_in, in_new; cbn [in_right in_items]; rewrite wsum_cons, !wsum_nil; cbn [wo]; unfold kn; lia).
  assert (Ha : forall x, w_ina (kn ncells x) (kv vcells x) (ina_new n) + cnt x h0 <= 1) by (intros x; specialize (H1 x); unfold w_ina, ina_new; cbn [ia_right ia_items]; rewrite wsum_cons, !wsum_nil; cbn [wo]; unfold kn; lia).
  assert (Ho : forall x l, wsum (wsum (kn ncells x)) (map opt_list l) = wsum (wo (kn ncells x)) l).
  { intros x l; induction l as [|[m|] l IH]; [reflexivity| |]; cbn [map opt_list]; rewrite !wsum_cons, IH, ?wsum_nil; cbn [wo]; lia. }
  repeat apply conj.
  - exact (conserves_exclusive _ _ _ _ _ (in_conserves ncells vcells gvcb H) _ _ Hi).
  - intros s h l Hr El; apply (conserves_exclusive _ _ _ _ _ (dleaves_conserves ncells vcells _ Hn)); intros x.
    pose proof (conserves_reached _ _ _ _ _ (in_conserves ncells vcells gvcb H) _ _ Hi _ _ Hr x) as Hw; unfold in_leaves, w_in in *.
    destruct (in_moved s); [|destruct (in_right s) as [|r rs]; [discriminate|]]; injection El as <-; unfold w_dl, wvs; cbn [dl_root dl_bottom dl_top dl_items wo].
    + rewrite wsum_nil, Ho; lia.
    + rewrite wsum_cons in Hw; rewrite !wsum_nil; lia.
  - exact (conserves_exclusive _ _ _ _ _ (ina_conserves ncells vcells gvcb H) _ _ Ha).
  - intros s h Hr; apply (conserves_exclusive _ _ _ _ _ (daleaves_conserves ncells vcells _ Hn)); intros x.
    pose proof (conserves_reached _ _ _ _ _ (ina_conserves ncells vcells gvcb H) _ _ Ha _ _ Hr x) as Hw; unfold ina_leaves, w_ina in *.
    destruct (ia_right s) as [|r [|r' rs]]; unfold w_da, wvs; cbn [da_root da_items da_old da_new wo].
    + cbn [map]; rewrite !wsum_nil in *; lia.
    + rewrite wsum_cons in Hw; rewrite !wsum_nil in *; lia.
    + rewrite Ho, wsum_nil; lia.
  - apply (conserves_exclusive _ _ _ _ _ (bfscb_conserves ncells vcells gvcb H)); intros x; specialize (H1 x); pose proof (bfscb_start_w gvcb ncells vcells H x n path); lia.
  - apply (conserves_exclusive _ _ _ _ _ (precb_conserves ncells vcells gvcb H)); intros x; specialize (H1 x); unfold w_prec, prec_new; cbn [pc_root pc_stack pc_anc pc_children wo wopt]; rewrite !wsum_nil; unfold kn; lia.
  - apply (conserves_exclusive _ _ _ _ _ (postcob_conserves ncells vcells gvcb H)); intros x; specialize (H1 x); unfold w_postco, postco_new; cbn [pto_root pto_stack pto_anc wo]; rewrite !wsum_nil; unfold kn; lia.
  - apply (conserves_exclusive _ _ _ _ _ (inco_conserves ncells vcells gvcb H)); intros x; specialize (H1 x); unfold w_inco, inco_new; cbn [io_right io_anc]; rewrite wsum_cons, !wsum_nil; cbn [wo]; unfold kn; lia.
Qed.
Print Assumptions C53_binary.

(** ** Collections *)
Lemma coll_once {T} (tcells : T -> list nat) (trees : list T) h0 : NoDup (flat_map tcells trees ++ h0) ->
  forall x, wsum (fun t => cnt x (tcells t)) trees + cnt x h0 <= 1.
Proof. intros H x; pose proof (once_of _ _ H x) as H1; rewrite cnt_flat in H1; exact H1. Qed.
Theorem C53_collections : forall Nd V (gvc : Nd -> V * list Nd) ncells vcells, takes_apart gvc ncells vcells ->
  forall trees h0, NoDup (flat_map ncells trees ++ h0) ->
  exclusive_items vcells (bfs_each_next gvc) (coll_new trees) h0 /\
  exclusive_items vcells (pre_each_next gvc) (coll_new trees) h0 /\
  exclusive_items vcells (post_each_next gvc) (coll_new trees) h0 /\
  (forall s, coll_attach (coll_new trees : coll Nd (bfs_iter Nd)) = Ok s ->
    exclusive_contexts vcells (flat_map ncells) (bfsc_each_next gvc) (collc_get bfsc_get) (collc_written bfsc_written) s h0) /\
  (forall s, coll_attach (coll_new trees : coll Nd (pre_iter Nd)) = Ok s ->
    exclusive_contexts vcells (flat_map ncells) (prec_each_next gvc) (collc_get prec_get) (collc_written prec_written) s h0) /\
  (forall s, coll_attach (coll_new trees : coll Nd (post_iter Nd V)) = Ok s ->
    exclusive_contexts vcells nothing (postco_each_next gvc) (collc_get postco_get) (collc_written postco_written) s h0).
Proof.
  intros Nd V gvc ncells vcells H trees h0 H0; pose proof (coll_once _ _ _ H0) as H1; repeat apply conj.
  - refine (conserves_exclusive _ _ _ _ _ (coll_conserves ncells _ _ vcells _ (bfs_conserves ncells vcells gvc H) _) _ _ _);
      [intros x t; unfold w_bfs, bfs_new; cbn [bfs_root bfs_queue wo]; rewrite wsum_nil; unfold kn; lia|intros x; specialize (H1 x); unfold w_coll, coll_new; cbn [co_trees co_cur wopt]; lia].
  - refine (conserves_exclusive _ _ _ _ _ (coll_conserves ncells _ _ vcells _ (pre_conserves ncells vcells gvc H) _) _ _ _);
      [intros x t; unfold w_pre, pre_new; cbn [pre_root pre_stack wo]; rewrite wsum_nil; unfold kn; lia|intros x; specialize (H1 x); unfold w_coll, coll_new; cbn [co_trees co_cur wopt]; lia].
  - refine (conserves_exclusive _ _ _ _ _ (coll_conserves ncells _ _ vcells _ (post_conserves ncells vcells gvc H) _) _ _ _);
      [intros x t; unfold w_post, post_new, wvs; cbn [po_root po_stack po_items wo]; rewrite !wsum_nil; unfold kn; lia|intros x; specialize (H1 x); unfold w_coll, coll_new; cbn [co_trees co_cur wopt]; lia].
  - intros s E; injection E as <-; refine (conserves_exclusive _ _ _ _ _ (collc_conserves ncells _ _ _ (context_cells vcells (flat_map ncells)) _ _ eq_refl (bfsc_conserves ncells vcells gvc H) _) _ _ _);
      [intros x t p; apply bfsc_start_w, H|intros x; specialize (H1 x); unfold w_collc; cbn [cc_trees cc_cur wopt coll_new co_trees]; lia].
  - intros s E; injection E as <-; refine (conserves_exclusive _ _ _ _ _ (collc_conserves ncells _ _ _ (context_cells vcells (flat_map ncells)) _ _ eq_refl (prec_conserves ncells vcells gvc H) _) _ _ _);
      [intros x t p; unfold w_prec, prec_new; cbn [pc_root pc_stack pc_anc pc_children wo wopt]; rewrite !wsum_nil; unfold kn; lia|intros x; specialize (H1 x); unfold w_collc; cbn [cc_trees cc_cur wopt coll_new co_trees]; lia].
  - intros s E; injection E as <-; refine (conserves_exclusive _ _ _ _ _ (collc_conserves ncells _ _ _ (context_cells vcells nothing) _ _ eq_refl (postco_conserves ncells vcells gvc H) _) _ _ _);
      [intros x t p; unfold w_postco, postco_new; cbn [pto_root pto_stack pto_anc wo]; rewrite !wsum_nil; unfold kn; lia|intros x; specialize (H1 x); unfold w_collc; cbn [cc_trees cc_cur wopt coll_new co_trees]; lia].
Qed.
Print Assumptions C53_collections.

Theorem C53_collections_binary : forall Nd V (gvcb : Nd -> V * (option Nd * option Nd)) ncells vcells, takes_apart_binary gvcb ncells vcells ->
  forall trees h0, NoDup (flat_map ncells trees ++ h0) ->
  exclusive_items vcells (in_each_next gvcb) (coll_new trees) h0 /\
  (forall s, coll_attach (coll_new trees : coll Nd (bfs_iter Nd)) = Ok s ->
    exclusive_contexts vcells (pcells ncells) (bfscb_each_next gvcb) (collc_get bfsc_get) (collc_written bfsc_written) s h0) /\
  (forall s, coll_attach (coll_new trees : coll Nd (pre_iter Nd)) = Ok s ->
    exclusive_contexts vcells (pcells ncells) (precb_each_next gvcb) (collc_get prec_get) (collc_written prec_written) s h0) /\
  (forall s, coll_attach (coll_new trees : coll Nd (post_iter Nd V)) = Ok s ->
    exclusive_contexts vcells nothing (postcob_each_next gvcb) (collc_get postco_get) (collc_written postco_written) s h0) /\
  (forall s, coll_attach (coll_new trees : coll Nd (in_iter Nd V)) = Ok s ->
    exclusive_contexts vcells nothing (inco_each_next gvcb) (collc_get inco_get) (collc_written inco_written) s h0).
Proof.
  intros Nd V gvcb ncells vcells H trees h0 H0; pose proof (coll_once _ _ _ H0) as H1; repeat apply conj.
  - refine (conserves_exclusive _ _ _ _ _ (coll_conserves ncells _ _ vcells _ (in_conserves ncells vcells gvcb H) _) _ _ _);
      [intros x t; unfold w_in, in_new; cbn [in_right in_items]; rewrite wsum_cons, !wsum_nil; cbn [wo]; unfold kn; lia|intros x; specialize (H1 x); unfold w_coll, coll_new; cbn [co_trees co_cur wopt]; lia].
  - intros s E; injection E as <-; refine (conserves_exclusive _ _ _ _ _ (collc_conserves ncells _ _ _ (context_cells vcells (pcells ncells)) _ _ eq_refl (bfscb_conserves ncells vcells gvcb H) _) _ _ _);
      [intros x t p; apply bfscb_start_w, H|intros x; specialize (H1 x); unfold w_collc; cbn [cc_trees cc_cur wopt coll_new co_trees]; lia].
  - intros s E; injection E as <-; refine (conserves_exclusive _ _ _ _ _ (collc_conserves ncells _ _ _ (context_cells vcells (pcells ncells)) _ _ eq_refl (precb_conserves ncells vcells gvcb H) _) _ _ _);
      [intros x t p; unfold w_prec, prec_new; cbn [pc_root pc_stack pc_anc pc_children wo wopt]; rewrite !wsum_nil; unfold kn; lia|intros x; specialize (H1 x); unfold w_collc; cbn [cc_trees cc_cur wopt coll_new co_trees]; lia].
  - intros s E; injection E as <-; refine (conserves_exclusive _ _ _ _ _ (collc_conserves ncells _ _ _ (context_cells vcells nothing) _ _ eq_refl (postcob_conserves ncells vcells gvcb H) _) _ _ _);
      [intros x t p; unfold w_postco, postco_new; cbn [pto_root pto_stack pto_anc wo]; rewrite !wsum_nil; unfold kn; lia|intros x; specialize (H1 x); unfold w_collc; cbn [cc_trees cc_cur wopt coll_new co_trees]; lia].
  - intros s E; injection E as <-; refine (conserves_exclusive _ _ _ _ _ (collc_conserves ncells _ _ _ (context_cells vcells nothing) _ _ eq_refl (inco_conserves ncells vcells gvcb H) _) _ _ _);
      [intros x t p; unfold w_inco, inco_new; cbn [io_right io_anc]; rewrite wsum_cons, !wsum_nil; cbn [wo]; unfold kn; lia|intros x; specialize (H1 x); unfold w_collc; cbn [cc_trees cc_cur wopt coll_new co_trees]; lia].
Qed.
Print Assumptions C53_collections_binary.

(** ** [Tree<T>] and [BinaryTree<T>] meet the hypotheses *)
Definition vcell (v : nat) : list nat := [v].
Theorem C53_trees : takes_apart tree_gvc tree_cells vcell /\ takes_apart_binary btree_gvcb btree_cells vcell.
Proof.
  split.
  - intros [v ts] x; apply Nat.eq_le_incl; reflexivity.
  - intros [v l r] x; apply Nat.eq_le_incl; unfold pcells, ocells, btree_cells; destruct l, r; cbn [btree_gvcb fst snd flat opt_list map preorder flat_map app vcell count_occ]; rewrite ?app_nil_r; reflexivity.
Qed.
Print Assumptions C53_trees.

(** A streaming iterator, a caller that makes [k] calls, writes into the current item, and makes [j] more calls. *)
Lemma reached_calls {St O} (next : nat -> St -> Res (O * St)) shown (written : St -> St -> Prop) s0 h0 f k : forall s h os s',
  reached next nothing shown written s0 h0 s h -> calls next k s f = Ok (os, s') -> reached next nothing shown written s0 h0 s' h.
Proof.
  induction k as [|k IH]; intros s h os s' Hr E; [injection E as _ <-; exact Hr|]; cbn [calls] in E.
  destruct (next f s) as [[o s1]| | |] eqn:E1; cbn [bindR] in E; try discriminate; destruct (calls next k s1 f) as [[os1 s2]| | |] eqn:E2; cbn [bindR] in E; try discriminate.
  injection E as _ <-; refine (IH s1 h _ _ _ E2); exact (reached_next next nothing shown written s0 h0 f s h o s1 Hr E1).
Qed.
Definition call_use_call {St O} (next : nat -> St -> Res (O * St)) (use : St -> St) (k j f : nat) (s0 : St) : Res (St * St * St) :=
  '(_, s1) <- calls next k s0 f ;; '(_, s3) <- calls next j (use s1) f ;; Ok (s1, use s1, s3).
Lemma reached_call_use_call {St O} (next : nat -> St -> Res (O * St)) shown (written : St -> St -> Prop) s0 h0 use k j f s1 s2 s3 h :
  call_use_call next use k j f s0 = Ok (s1, s2, s3) -> written s1 s2 -> within (shown s2 ++ h) (shown s1 ++ h0) -> reached next nothing shown written s0 h0 s3 h.
Proof.
  unfold call_use_call; destruct (calls next k s0 f) as [[os1 s1']| | |] eqn:E1; cbn [bindR]; try discriminate.
  destruct (calls next j (use s1') f) as [[os3 s3']| | |] eqn:E3; cbn [bindR]; try discriminate; intros E; injection E as -> <- ->; intros Hw Hin.
  refine (reached_calls _ _ _ _ _ _ _ _ _ _ _ _ E3); refine (reached_use _ _ _ _ _ _ _ _ _ _ _ (or_introl Hw) Hin).
  exact (reached_calls _ _ _ _ _ _ _ _ _ _ _ (reached_start _ _ _ _ _ _) E1).
Qed.
Lemma within_small l m : forallb (fun x => count_occ Nat.eq_dec l x <=? count_occ Nat.eq_dec m x) l = true -> within l m.
Proof.
  intros H x; destruct (in_dec Nat.eq_dec x l) as [Hi|Hi]; [|apply (count_occ_not_In Nat.eq_dec) in Hi; lia].
  rewrite forallb_forall in H; apply Nat.leb_le, H, Hi.
Qed.

(** The caller takes the first child out of the context (n-ary: [children_mut().next()]). *)
Definition prec_take (s : prec (tree nat) nat (tree nat) (list (tree nat))) :=
  mkPrec (pc_root s) (pc_stack s) (pc_path s) (pc_anc s) (option_map (@tl _) (pc_children s)).
Definition postc_take (s : postc (tree nat) nat (tree nat) (list (tree nat))) :=
  mkPostc (pt_root s) (pt_stack s) (pt_conts s) (pt_path s) (pt_anc s) (option_map (@tl _) (pt_children s)).
(** The caller takes both children out of the pair. *)
Definition postcb_take (s : postc (btree nat) nat (option (btree nat)) (option (btree nat) * option (btree nat))) :=
  mkPostc (pt_root s) (pt_stack s) (pt_conts s) (pt_path s) (pt_anc s) (Some (None, None)).
Definition inc_take (s : inc (btree nat) nat) :=
  mkInc (ic_right s) (ic_path s) (ic_anc s) (Some (None, None)) (ic_conts s) (ic_status s).

Ltac do_write := split; [discriminate|]; do 2 eexists; split; [|split; [|reflexivity]]; [reflexivity|split; discriminate].
Ltac not_nodup HD := vm_compute in HD; repeat match goal with H : NoDup (_ :: _) |- _ => inversion H; clear H; subst end; cbn in *; intuition.

(** A caller of the preorder iterator with context: at the root it takes the first child and keeps it; the iterator then never visits it. *)
Example C53_context_example :
  NoDup (tree_cells ex_tree) /\
  exists s, reached (prec_next tree_gvc) nothing (fun s => context_cells vcell (flat_map tree_cells) (prec_get s)) prec_written (prec_new ex_tree []) [] s [2; 4; 5; 7] /\
    prec_get s = Some (mkCtx [0%N] [1; 3] (Some [])).
Proof.
  split; [repeat constructor; cbn; lia|].
  destruct (call_use_call (prec_next tree_gvc) prec_take 1 1 5 (prec_new ex_tree [])) as [[[s1 s2] s3]| | |] eqn:E; try (vm_compute in E; discriminate).
  exists s3; split; [refine (reached_call_use_call _ _ _ _ _ _ _ _ _ s1 s2 _ _ E _ _)|]; vm_compute in E; injection E as <- <- <-.
  - do_write.
  - apply within_small; reflexivity.
  - reflexivity.
Qed.

(** ** Postorder and inorder mutable iterators with context: a node can be reached in two ways.

    The n-ary postorder iterator duplicates the children iterator ([ptr::read], mut_borrow.rs 145-198), the binary ones go through raw pointers
    (mut_borrow.rs 442-506, inorder 234-299).  At node 2 the caller takes out its child 3; at node 1 it finds node 2, and with it node 3. *)
Theorem C53_postorder_context_refuted : ~ (forall t h0, NoDup (tree_cells t ++ h0) ->
  exclusive_contexts vcell (flat_map tree_cells) (postc_next tree_gvc) postc_get postc_written (postc_new t []) h0).
Proof.
  intros H; specialize (H (TNode 1 [TNode 2 [TNode 3 []]]) [] ltac:(repeat constructor; cbn; lia)).
  destruct (call_use_call (postc_next tree_gvc) postc_take 2 1 5 (postc_new (TNode 1 [TNode 2 [TNode 3 []]]) [])) as [[[s1 s2] s3]| | |] eqn:E; try (vm_compute in E; discriminate).
  specialize (H s3 [3]); refine (_ (H (reached_call_use_call _ _ _ _ _ _ _ _ _ s1 s2 _ _ E _ _))); clear H; vm_compute in E; injection E as <- <- <-.
  - intros HD; not_nodup HD.
  - do_write.
  - apply within_small; reflexivity.
Qed.
Print Assumptions C53_postorder_context_refuted.

Theorem C53_postorder_context_binary_refuted : ~ (forall t h0, NoDup (btree_cells t ++ h0) ->
  exclusive_contexts vcell (pcells btree_cells) (postcb_next btree_gvcb pair_iter) postc_get postc_written (postc_new t []) h0).
Proof.
  pose (t := BNode 1 (Some (BNode 2 (Some (BNode 3 None None)) None)) None).
  intros H; specialize (H t [] ltac:(repeat constructor; cbn; lia)).
  destruct (call_use_call (postcb_next btree_gvcb pair_iter) postcb_take 2 1 9 (postc_new t [])) as [[[s1 s2] s3]| | |] eqn:E; try (vm_compute in E; discriminate).
  specialize (H s3 [3]); refine (_ (H (reached_call_use_call _ _ _ _ _ _ _ _ _ s1 s2 _ _ E _ _))); clear H; vm_compute in E; injection E as <- <- <-.
  - intros HD; not_nodup HD.
  - do_write.
  - apply within_small; reflexivity.
Qed.
Print Assumptions C53_postorder_context_binary_refuted.

(** At node 1 the caller takes its right child 2, with child 3; the next context, of node 3, shows nodes 2 and 3 among the ancestors. *)
Theorem C53_inorder_context_refuted : ~ (forall t h0, NoDup (btree_cells t ++ h0) ->
  exclusive_contexts vcell (pcells btree_cells) (inc_next btree_gvcb) inc_get inc_written (inc_new t []) h0).
Proof.
  pose (t := BNode 1 None (Some (BNode 2 (Some (BNode 3 None None)) None))).
  intros H; specialize (H t [] ltac:(repeat constructor; cbn; lia)).
  destruct (call_use_call (inc_next btree_gvcb) inc_take 1 1 9 (inc_new t [])) as [[[s1 s2] s3]| | |] eqn:E; try (vm_compute in E; discriminate).
  specialize (H s3 [2; 3]); refine (_ (H (reached_call_use_call _ _ _ _ _ _ _ _ _ s1 s2 _ _ E _ _))); clear H; vm_compute in E; injection E as <- <- <-.
  - intros HD; not_nodup HD.
  - do_write.
  - apply within_small; reflexivity.
Qed.
Print Assumptions C53_inorder_context_refuted.

(** A caller that keeps nothing from one item to the next and puts everything back is safe with these iterators too: each context alone
    gives one way to every cell, and none to those the caller had before. *)
Theorem C53_postorder_inorder_one_context :
  (forall Nd V (gvc : Nd -> V * list Nd) nt ncells vcells, node_tree gvc nt -> takes_apart gvc ncells vcells ->
    forall n h0, small_nodes gvc (nt n) -> NoDup (ncells n ++ h0) -> forall k os s,
    calls (postc_next gvc) k (postc_new n []) ⇓ Ok (os, s) -> Forall (fun o => NoDup (context_cells vcells (flat_map ncells) o ++ h0)) os) /\
  (forall Nd V (gvcb : Nd -> V * (option Nd * option Nd)) bt ncells vcells, node_btree gvcb bt -> takes_apart_binary gvcb ncells vcells ->
    forall n h0, NoDup (ncells n ++ h0) -> forall k os,
    (forall s, calls (postcb_next gvcb pair_iter) k (postc_new n []) ⇓ Ok (os, s) -> Forall (fun o => NoDup (context_cells vcells (pcells ncells) o ++ h0)) os) /\
    (forall s, calls (inc_next gvcb) k (inc_new n []) ⇓ Ok (os, s) -> Forall (fun o => NoDup (context_cells vcells (pcells ncells) o ++ h0)) os)).
Proof.
  assert (HN : forall A (l h : list nat) (w : A -> list nat) (n : A), NoDup (w n ++ h) -> (forall x, cnt x l <= cnt x (w n)) -> NoDup (l ++ h)).
  { intros A l h w n H Hl; apply (NoDup_count_occ Nat.eq_dec); intros x; pose proof (once_of _ _ H x); rewrite cnt_app; specialize (Hl x); lia. }
  split.
  - intros Nd V gvc nt ncells vcells Hnt H n h0 Hs H0 k os s Hc; destruct (C13_postorder_context Nd V gvc nt Hnt n Hs) as (s1 & E & Hy); injection E as <-.
    refine (yielded_all _ _ _ _ Hy _ _ _ _ _ Hc); [exact (HN _ [] _ _ _ H0 (fun x => Nat.le_0_l _))|].
    intros a Ha; apply in_map_iff in Ha as (p & <- & Hp); apply (HN _ _ _ _ _ H0); intros x.
    apply (Permutation_in _ (postorder_perm _)) in Hp; exact (context_cells_at gvc nt Hnt ncells vcells H x _ n [] [] eq_refl p Hp).
  - intros Nd V gvcb bt ncells vcells Hbt H n h0 H0 k os; split; intros s Hc.
    + destruct (C13_postorder_context_binary Nd V gvcb bt Hbt n) as (s1 & E & Hy); injection E as <-.
      refine (yielded_all _ _ _ _ Hy _ _ _ _ _ Hc); [exact (HN _ [] _ _ _ H0 (fun x => Nat.le_0_l _))|].
      intros a Ha; apply in_map_iff in Ha as (p & <- & Hp); apply (HN _ _ _ _ _ H0); intros x.
      apply (Permutation_in _ (postorder_perm _)) in Hp; exact (context_cells_at_binary gvcb bt Hbt ncells vcells H x _ n [] [] eq_refl p Hp).
    + destruct (C15_inorder_context Nd V gvcb bt Hbt n) as (s1 & E & Hy); injection E as <-.
      refine (yielded_all _ _ _ _ Hy _ _ _ _ _ Hc); [exact (HN _ [] _ _ _ H0 (fun x => Nat.le_0_l _))|].
      intros a Ha; apply in_map_iff in Ha as (p & <- & Hp); apply (HN _ _ _ _ _ H0); intros x.
      apply (Permutation_in _ (inorder_perm _)) in Hp; exact (context_cells_at_binary gvcb bt Hbt ncells vcells H x _ n [] [] eq_refl p Hp).
Qed.
Print Assumptions C53_postorder_inorder_one_context.

Example C53_one_context_example : exists s l, calls (inc_next btree_gvcb) 7 (inc_new ex_btree []) 10 = Ok (l, s) /\
  map (context_cells vcell (pcells btree_cells)) l = [[1;2;4;6]; [1;2;4;6]; [1;2;4;6]; [1;2;4;6;3;5]; [1;3;5]; [1;3;5]; []].
Proof. vm_compute; do 2 eexists; split; reflexivity. Qed.
