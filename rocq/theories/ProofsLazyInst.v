(** * Runs of the iterators over trees that are made as they are traversed. *)
From Coq Require Import Permutation.
From Verif Require Import Prelim PrelimFacts Spec SpecFacts SpecObs SpecEdit SpecLazy ModelNode NodeFacts ModelPre ModelPost ModelBfs ModelLazy FuelMono.
From Verif Require Import Slots ProofsPlain ProofsPre ProofsPost ProofsBfs ProofsBfsAnc ProofsExact ProofsTree ProofsEdit ProofsOwnMore ProofsLazy ProofsLazyCtx.

Definition orderly (o : forall X, tree X -> list X) : Prop := forall X Y (g : X -> Y) t, o Y (tree_map g t) = map g (o X t).
Lemma orderly_pre : orderly (@preorder). Proof. exact @preorder_map. Qed.
Lemma orderly_post : orderly (@postorder). Proof. exact @postorder_map. Qed.
Lemma orderly_bfs : orderly (@bfs). Proof. exact @bfs_map. Qed.

Section Orders.
  Context {Nd : Type} (o : forall X, tree X -> list X) (Ho : orderly o).

  Lemma lines_tree (t : tree Nd) : map (ancestors_at tree_gvc) (o _ (positions (subtrees t))) = map line (o _ (positions t)).
  Proof.
    transitivity (map line (o _ (positions (tree_map root (subtrees t))))); [|rewrite subtrees_root; reflexivity].
    unfold positions; pose proof (annotate_map (@root Nd) (subtrees t) [] []) as E; cbn [map] in E; rewrite E, Ho, map_map.
    apply map_ext; intros q; unfold ancestors_at, line; rewrite map_app; cbn; f_equal; [|rewrite nval_tree; reflexivity].
    apply map_ext; intros; apply nval_tree.
  Qed.

  Lemma here_positions (t : tree Nd) : map pos_here (o _ (positions t)) = o _ t.
  Proof. rewrite <- Ho; unfold positions; rewrite annotate_here; reflexivity. Qed.

  Lemma nodes_tree (t : tree Nd) : map (nval tree_gvc) (o _ (subtrees t)) = o _ t.
  Proof. apply values_tree, Ho. Qed.
End Orders.

Lemma map_outputs {A B} (g : A -> B) l ks : map (option_map g) (map (nth_error l) ks) = map (nth_error (map g l)) ks.
Proof. rewrite map_map; apply map_ext; intros i; symmetry; apply nth_error_map. Qed.
Lemma flat_outputs {A B} (g : A -> list B) (h : A -> B) (l : list A) k : (forall a, In a l -> g a = [h a]) ->
  flat_map (fun x => match x with Some a => g a | None => [] end) (map (nth_error l) (seq 0 k)) = map h (firstn k l).
Proof.
  intros H; rewrite outs_split, flat_map_app.
  replace (flat_map _ (repeat None (k - length l))) with (@nil B) by (induction (k - length l); cbn; auto).
  rewrite app_nil_r, flat_map_concat_map, map_map.
  assert (Hf : forall a, In a (firstn k l) -> g a = [h a]).
  { intros a Ha; apply H; rewrite <- (firstn_skipn k l); apply in_or_app; auto. }
  clear H; induction (firstn k l) as [|a l' IH]; [reflexivity|]; cbn; rewrite (Hf a (or_introl eq_refl)), IH; [reflexivity|intros b Hb; apply Hf; right; exact Hb].
Qed.

Lemma olast_line {A} (p : pos A) : olast (Some (line p)) = [pos_here p].
Proof. apply olast_last. Qed.
Lemma logs_lines {A} (L : list (pos A)) k : flat_map olast (map (nth_error (map line L)) (seq 0 k)) = map pos_here (firstn k L).
Proof.
  rewrite <- map_outputs, flat_map_concat_map, map_map, <- flat_map_concat_map.
  rewrite <- (flat_outputs (fun p => [pos_here p]) pos_here) by reflexivity.
  rewrite !flat_map_concat_map, !map_map; f_equal; apply map_ext; intros i; destruct (nth_error L i); [apply olast_line|reflexivity].
Qed.

(** The last output of a run. *)
Lemma calls_last {S O} (next : nat -> S -> Res (O * S)) (get : S -> O) F : (forall s x s', next F s = Ok (x, s') -> x = get s') ->
  forall k s xs s', calls next (Datatypes.S k) s F = Ok (xs, s') -> nth_error xs k = Some (get s').
Proof.
  intros Hg; induction k as [|k IH]; intros s xs s'; cbn [calls].
  - destruct (next F s) as [[x t]| | |] eqn:E; try discriminate; cbn [bindR]; intros [= <- <-]; rewrite (Hg _ _ _ E); reflexivity.
  - destruct (next F s) as [[x t]| | |] eqn:E; try discriminate; cbn [bindR].
    specialize (IH t); cbn [calls] in IH; match goal with |- bindR ?X _ = _ -> _ => destruct X as [[ys u]| | |] eqn:E2; try discriminate end; cbn [bindR]; intros [= <- <-].
    exact (IH _ _ eq_refl).
Qed.
Lemma conv_last {S O} (next : nat -> S -> Res (O * S)) (get : S -> O) : (forall F s x s', next F s = Ok (x, s') -> x = get s') ->
  forall k s xs s', calls next (Datatypes.S k) s ⇓ Ok (xs, s') -> nth_error xs k = Some (get s').
Proof. intros Hg k s xs s' [F HF]; exact (calls_last next get F (Hg F) k s xs s' (HF F (le_n F))). Qed.

Lemma nth_outputs {A} (l : list A) k : nth_error (map (nth_error l) (seq 0 (S k))) k = Some (nth_error l k).
Proof.
  rewrite nth_error_map.
  assert (E : nth_error (seq 0 (S k)) k = Some k) by (rewrite (nth_error_nth' _ 0) by (rewrite seq_length; lia); rewrite seq_nth by lia; reflexivity).
  rewrite E; reflexivity.
Qed.

Section Runs.
  Context {Nd V C It : Type}.
  Variable gv : Nd -> V * C.
  Variable into_iter : C -> It.
  Variable poll : It -> option Nd * It.
  Local Notation value := (nval gv).
  Variable U : nat -> It -> list (tree Nd) -> Prop.
  Hypothesis U_le : forall m it l, U (S m) it l -> U m it l.
  Hypothesis U_poll : forall m it l, U (S m) it l ->
    match l with
    | [] => exists it', poll it = (None, it')
    | t :: l' => exists it', poll it = (Some (root t), it') /\ U m it' l' /\ U m (into_iter (nkids gv (root t))) (subs t)
    end.
  Local Notation Un := (Un gv into_iter U).
  Variable t : tree Nd.
  Variable k : nat.
  Hypothesis Ht : Un k t.

  Local Notation outs l := (map (nth_error l) (seq 0 k)).

  Lemma logs_plain (l : list Nd) : flat_map opt_list (outs l) = firstn k l.
  Proof.
    pose proof (flat_outputs (fun a => [a]) (fun a => a) l k (fun _ _ => eq_refl)) as E.
    rewrite map_id in E; exact E.
  Qed.

  Lemma run_bfs : exists s, calls (lbfs_next gv into_iter poll) k (lbfs_new (root t)) ⇓ Ok (outs (map value (bfs t)), s) /\ rev (lb_log s) = firstn k (bfs t).
  Proof.
    destruct (bfs_yields tree_gvc subtrees node_tree_tree t k) as (s1 & Hc); rewrite (nodes_tree (@bfs) orderly_bfs) in Hc.
    unshelve epose proof (follow _ _ _ (fun F => F) _ (bfs_follow gv into_iter poll U U_le U_poll) (more_lbfs gv into_iter poll) k (bfs_new t) (lbfs_new (root t)) _ _ _ Hc) as (s2 & Hc2 & Hlog & _).
    - split; [reflexivity|]; split; [constructor|]; split; [reflexivity|]; intros u [= <-]; exact Ht.
    - rewrite map_outputs in Hc2; exists s2; split; [exact Hc2|rewrite Hlog, rev_involutive; apply logs_plain].
  Qed.

  Lemma run_pre : exists s, calls (lpre_next gv into_iter poll) k (lpre_new (root t)) ⇓ Ok (outs (map value (preorder t)), s) /\ rev (lp_log s) = firstn k (preorder t).
  Proof.
    destruct (pre_yields tree_gvc subtrees node_tree_tree t k) as (s1 & Hc); rewrite (nodes_tree (@preorder) orderly_pre) in Hc.
    unshelve epose proof (follow _ _ _ (fun F => F) _ (pre_follow gv into_iter poll U U_le U_poll) (more_lpre gv into_iter poll) k (pre_new t) (lpre_new (root t)) _ _ _ Hc) as (s2 & Hc2 & Hlog & _).
    - split; [reflexivity|]; split; [constructor|]; split; [reflexivity|]; intros u [= <-]; exact Ht.
    - rewrite map_outputs in Hc2; exists s2; split; [exact Hc2|rewrite Hlog, rev_involutive; apply logs_plain].
  Qed.

  Lemma lines_values (L : list (pos Nd)) : map (map value) (map line L) = map (ancestors_at gv) L.
  Proof. rewrite map_map; reflexivity. Qed.

  Lemma run_prea : exists s, calls (lprea_next gv into_iter poll) k (lprea_new (root t)) ⇓ Ok (outs (map (ancestors_at gv) (preorder (positions t))), s) /\
    rev (lpa_log s) = firstn k (preorder t).
  Proof.
    destruct (prea_yields tree_gvc subtrees node_tree_tree t k) as (s1 & Hc); rewrite (lines_tree (@preorder) orderly_pre) in Hc.
    unshelve epose proof (follow _ _ _ (fun F => F) _ (prea_follow gv into_iter poll U U_le U_poll) (more_lprea gv into_iter poll) k (prea_new t) (lprea_new (root t)) _ _ _ Hc) as (s2 & Hc2 & Hlog & _).
    - split; [reflexivity|]; split; [constructor|]; split; [reflexivity|]; split; [reflexivity|]; split; [intros u [= <-]; exact Ht|reflexivity].
    - rewrite map_outputs, lines_values in Hc2; exists s2; split; [exact Hc2|].
      rewrite Hlog, rev_involutive, logs_lines, <- firstn_map, (here_positions (@preorder) orderly_pre); reflexivity.
  Qed.

  Lemma run_bfsa : k <= S (length (bfs t)) -> exists s, calls (lbfsa_next gv into_iter poll) k (lbfsa_new gv into_iter (root t)) ⇓ Ok (outs (map (ancestors_at gv) (bfs (positions t))), s) /\
    rev (lba_log s) = firstn (Nat.max 1 k) (bfs t).
  Proof.
    intros Hk; destruct (bfsa_yields tree_gvc subtrees t node_tree_tree k) as (s1 & Hc).
    { rewrite (lines_tree (@bfs) orderly_bfs), map_length; rewrite <- (here_positions (@bfs) orderly_bfs), map_length in Hk; exact Hk. }
    rewrite (lines_tree (@bfs) orderly_bfs) in Hc.
    unshelve epose proof (follow _ _ _ (fun F => F) _ (bfsa_follow gv into_iter poll U U_le U_poll) (more_lbfsa gv into_iter poll) k (bfsa_new tree_gvc t) (lbfsa_new gv into_iter (root t)) _ _ _ Hc) as (s2 & Hc2 & HR).
    - unfold bfsa_new, lbfsa_new; destruct t as [n ts]; cbn [tree_gvc root]; rewrite (gv_eq gv n).
      split; [split; [reflexivity|split; [reflexivity|split; reflexivity]]|]; split; [constructor; [exact Ht|constructor]|].
      split; [reflexivity|split; reflexivity].
    - rewrite map_outputs, lines_values in Hc2; exists s2; split; [exact Hc2|].
      assert (Hlog : forall j, rev (rev (flat_map olast (map (nth_error (map line (bfs (positions t)))) (seq 0 j)))) = firstn j (bfs t)).
      { intros j; rewrite rev_involutive, logs_lines, <- firstn_map, (here_positions (@bfs) orderly_bfs); reflexivity. }
      destruct k as [|k']; cbn [Nat.max].
      + destruct Hc2 as [F HF]; specialize (HF F (le_n F)); cbn in HF; injection HF as <-.
        unfold lbfsa_new, bfs; destruct t as [n ts]; cbn [root]; rewrite (gv_eq gv n); reflexivity.
      + destruct HR as (_ & _ & HR); destruct (ba_is_root s1); [destruct HR as [HR _]; discriminate|].
        rewrite HR; exact (Hlog (S k')).
  Qed.

  Section Post.
    Variable W : nat -> list It -> list (list (tree Nd)) -> Prop.
    Hypothesis W_shape : forall m q2 q1, W m q2 q1 -> length q2 = length q1.
    Hypothesis W_nil : forall m, W m [] [].
    Hypothesis W_poll : forall m it q2 l q1, W (S m) (it :: q2) (l :: q1) ->
      match l with
      | [] => exists it', poll it = (None, it') /\ W m q2 q1
      | t :: l' => exists it', poll it = (Some (root t), it') /\ W (S m) (into_iter (nkids gv (root t)) :: it' :: q2) (subs t :: l' :: q1)
      end.
    Hypothesis Hw : W k [into_iter (nkids gv (root t))] [subs t].

    Lemma tl_items (s1 : post_iter (tree Nd) Nd) L : calls (posta_next tree_gvc) k (post_new t) ⇓ Ok (outs (map line L), s1) ->
      map pos_here (firstn k L) ++ tl (po_items s1) = map pos_here (firstn k L) ++
        rev (match k with 0 => [] | S j => match nth_error L j with Some p => pos_above p | None => [] end end).
    Proof.
      intros Hc; f_equal; clear Ht Hw; destruct k as [|j].
      - destruct Hc as [F HF]; specialize (HF F (le_n F)); cbn in HF; injection HF as <-; reflexivity.
      - pose proof (conv_last (posta_next (@tree_gvc Nd)) posta_get) as Hl; specialize (Hl ltac:(unfold posta_next; intros F s x s'; destruct (posta_advance tree_gvc F s); try discriminate; cbn [bindR]; intros [= <- <-]; reflexivity)).
        specialize (Hl _ _ _ _ Hc); rewrite nth_outputs in Hl; injection Hl as Hl; rewrite nth_error_map in Hl.
        unfold posta_get in Hl; destruct (nth_error L j) as [p|]; cbn [option_map] in Hl.
        + destruct (po_items s1) as [|a l]; [discriminate|]; injection Hl as Hl; unfold line in Hl; cbn [rev] in Hl.
          apply app_inj_tail in Hl as [Hl _]; rewrite Hl, rev_involutive; reflexivity.
        + destruct (po_items s1); [reflexivity|discriminate].
    Qed.

    Lemma entered_perm (L : list (pos Nd)) log : Permutation log (map pos_here (firstn k L) ++
        rev (match k with 0 => [] | S j => match nth_error L j with Some p => pos_above p | None => [] end end)) -> Permutation log (entered k L).
    Proof. intros ->; unfold entered; apply Permutation_app_head; symmetry; apply Permutation_rev. Qed.

    Lemma run_posta : exists s, calls (lposta_next gv into_iter poll) k (lpost_new (root t)) ⇓ Ok (outs (map (ancestors_at gv) (postorder (positions t))), s) /\
      Permutation (lt_log s) (entered k (postorder (positions t))).
    Proof.
      destruct (posta_yields tree_gvc subtrees node_tree_tree t k) as (s1 & Hc); rewrite (lines_tree (@postorder) orderly_post) in Hc.
      unshelve epose proof (follow _ _ _ (fun F => F) _ (posta_follow gv into_iter poll W W_shape W_nil W_poll) (more_lposta gv into_iter poll) k (post_new t) (lpost_new (root t)) _ _ _ Hc) as (s2 & Hc2 & Hlog & _).
      - split; [constructor|]; split; [reflexivity|]; split; [reflexivity|]; split; [reflexivity|exact Hw].
      - rewrite map_outputs, lines_values in Hc2; exists s2; split; [exact Hc2|].
        rewrite logs_lines, (tl_items s1 _ Hc) in Hlog; apply entered_perm, Hlog.
    Qed.

    Lemma run_post : exists s, calls (lpost_next gv into_iter poll) k (lpost_new (root t)) ⇓ Ok (outs (map value (postorder t)), s) /\
      Permutation (lt_log s) (entered k (postorder (positions t))).
    Proof.
      destruct (posta_yields tree_gvc subtrees node_tree_tree t k) as (s1 & Hc); rewrite (lines_tree (@postorder) orderly_post) in Hc.
      unshelve epose proof (follow _ _ _ S _ (post_follow gv into_iter poll W W_shape W_nil W_poll) (more_lpost gv into_iter poll) k (post_new t) (lpost_new (root t)) _ _ _ Hc) as (s2 & Hc2 & Hlog & _).
      - split; [constructor|]; split; [reflexivity|]; split; [reflexivity|]; split; [reflexivity|exact Hw].
      - exists s2; split.
        + assert (E : map (fun x => hd_error (map value (olast x))) (outs (map line (postorder (positions t)))) = outs (map value (postorder t))); [|rewrite <- E; exact Hc2].
          rewrite <- (here_positions (@postorder) orderly_post t), (map_map pos_here), map_map.
          apply map_ext; intros i; rewrite !nth_error_map; destruct (nth_error _ i); cbn [option_map]; [|reflexivity].
          rewrite olast_line; reflexivity.
        + rewrite logs_lines, (tl_items s1 _ Hc) in Hlog; apply entered_perm, Hlog.
    Qed.
  End Post.
End Runs.
