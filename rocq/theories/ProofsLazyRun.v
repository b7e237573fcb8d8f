(** * Runs with context, and the trees that the runs follow. *)
From Coq Require Import Permutation.
From Verif Require Import Prelim PrelimFacts Spec SpecFacts SpecObs SpecEdit SpecLazy ModelNode NodeFacts ModelPre ModelPost ModelBfs ModelLazy FuelMono.
From Verif Require Import Slots ProofsPlain ProofsPre ProofsPost ProofsBfs ProofsExact ProofsTree ProofsEdit ProofsOwnMore ProofsLazy ProofsLazyCtx ProofsLazyInst.

Section Runs.
  Context {Nd V C It T C0 : Type}.
  Variable gv : Nd -> V * C.
  Variable into_iter : C -> It.
  Variable scan : It -> list N -> Res (option Nd * It * list N).
  Variable fetch : It -> N -> Res (option Nd * It * N).
  Variable gv0 : T -> Nd * C0.
  Variable into0 : C0 -> list (option T).
  Local Notation lab := (nval gv0).
  Variable U : nat -> It -> list (option T) -> Prop.
  Local Notation Uc := (Uc gv into_iter gv0 into0 U).
  Hypothesis U_le : forall m it l, U (S m) it l -> U m it l.
  Hypothesis U_scan : forall m it l path found l' path', U (S m) it l -> prec_scan l path = Ok (found, l', path') ->
    exists it', scan it path = Ok (option_map lab found, it', path') /\ (forall t, found = Some t -> U m it' l' /\ Uc m t).
  Hypothesis U_fetch : forall m it l k found l' k', U (S m) it l -> bfsc_skip l k = Ok (found, l', k') ->
    exists it', fetch it k = Ok (option_map lab found, it', k') /\ (forall t, found = Some t -> U m it' l' /\ Uc m t).
  Variable t : T.
  Variable k : nat.
  Hypothesis Ht : Uc k t.
  Local Notation outs l := (map (nth_error l) (seq 0 k)).
  (** The positions in the finite tree, labelled with its nodes and with ours. *)
  Variable L : list (pos T).
  Variable L' : list (pos Nd).
  Hypothesis HL : map (pos_map lab) L = L'.

  Lemma hctx_at p : hctx gv (context_at gv0 p) = context_at gv (pos_map lab p).
  Proof.
    unfold hctx, context_at; cbn [c_path c_ancestors c_children pos_map pos_path pos_above pos_here].
    rewrite !map_app, rev_app_distr; cbn; reflexivity.
  Qed.
  Lemma outs_ctx : map (option_map (hctx gv)) (outs (map (context_at gv0) L)) = outs (map (context_at gv) L').
  Proof. rewrite map_outputs, <- HL, !map_map; do 2 f_equal; apply map_ext; intros; apply hctx_at. Qed.
  Lemma anc_ctx p : c_ancestors (context_at gv0 p) = line (pos_map lab p).
  Proof. unfold context_at, line; cbn; rewrite map_app; reflexivity. Qed.
  Lemma logs_ctx : flat_map clast (outs (map (context_at gv0) L)) = map pos_here (firstn k L').
  Proof.
    rewrite <- logs_lines, <- HL, map_map, !flat_map_concat_map, !map_map; f_equal; apply map_ext; intros i.
    rewrite !nth_error_map; unfold clast; destruct (nth_error L i); [cbn [option_map]; rewrite anc_ctx|]; reflexivity.
  Qed.

  Lemma run_prec s1 : calls (precb_next gv0 into0) k (prec_new t []) ⇓ Ok (outs (map (context_at gv0) L), s1) ->
    exists s, calls (lprec_next gv into_iter scan) k (lprec_new (lab t) []) ⇓ Ok (outs (map (context_at gv) L'), s) /\ rev (lpc_log s) = map pos_here (firstn k L').
  Proof.
    intros Hc.
    unshelve epose proof (follow _ _ _ (fun F => F) _ (prec_follow gv into_iter scan gv0 into0 U U_le U_scan) (more_lprec gv into_iter scan) k (prec_new t []) (lprec_new (lab t) []) _ _ _ Hc) as (s2 & Hc2 & Hlog & _).
    - split; [reflexivity|]; split; [constructor|]; split; [reflexivity|]; split; [reflexivity|]; split; [reflexivity|]; split; [intros u [= <-]; exact Ht|reflexivity].
    - rewrite outs_ctx in Hc2; exists s2; split; [exact Hc2|]; rewrite Hlog, rev_involutive; apply logs_ctx.
  Qed.

  Lemma run_bfsc s1 : calls (bfscb_next gv0 into0) k (bfsc_new (nval gv0 t) (nkids gv0 t) []) ⇓ Ok (outs (map (context_at gv0) L), s1) ->
    exists s, calls (lbfsc_next gv into_iter fetch) k (lbfsc_new gv (lab t) []) ⇓ Ok (outs (map (context_at gv) L'), s) /\
      rev (lbc_log s) = match k with 0 => [lab t] | _ => map pos_here (firstn k L') end.
  Proof.
    intros Hc.
    unshelve epose proof (follow _ _ _ (fun F => F) _ (bfsc_follow gv into_iter fetch gv0 into0 U U_le U_fetch) (more_lbfsc gv into_iter fetch) k (bfsc_new (nval gv0 t) (nkids gv0 t) []) (lbfsc_new gv (lab t) []) _ _ _ Hc) as (s2 & Hc2 & HR).
    - unfold bfsc_new, lbfsc_new; rewrite (gv_eq gv (lab t)).
      split; [split; [reflexivity|split; [reflexivity|split; [reflexivity|split; [reflexivity|split; reflexivity]]]]|]; split; [constructor|].
      split; [split; [reflexivity|exact Ht]|split; [reflexivity|split; reflexivity]].
    - pose proof logs_ctx as Hl; rewrite outs_ctx in Hc2; exists s2; split; [exact Hc2|]; destruct k as [|k'].
      + destruct Hc2 as [F HF]; specialize (HF F (le_n F)); cbn in HF; injection HF as <-.
        unfold lbfsc_new; rewrite (gv_eq gv (lab t)); reflexivity.
      + destruct HR as (_ & _ & _ & HR); destruct (bc_is_root s1).
        * destruct HR as [HR _]; discriminate.
        * rewrite HR, rev_involutive; exact Hl.
  Qed.

  Section Post.
    Variable W : nat -> list It -> list (list (option T)) -> Prop.
    Hypothesis W_shape : forall m q2 q1, W m q2 q1 -> length q2 = length q1.
    Hypothesis W_nil : forall m, W m [] [].
    Hypothesis W_le : forall m q2 q1, W (S m) q2 q1 -> W m q2 q1.
    Hypothesis W_scan : forall m it q2 l q1 path found l' path', W (S m) (it :: q2) (l :: q1) -> prec_scan l path = Ok (found, l', path') ->
      exists it', scan it path = Ok (option_map lab found, it', path') /\
        match found with
        | Some t => W (S m) (into_iter (nkids gv (lab t)) :: it' :: q2) (into0 (nkids gv0 t) :: l' :: q1)
        | None => W m q2 q1
        end.
    Hypothesis Hw : W k [into_iter (nkids gv (lab t))] [into0 (nkids gv0 t)].

    Lemma run_postc s1 : calls (postcb_next gv0 into0) k (postc_new t []) ⇓ Ok (outs (map (context_at gv0) L), s1) ->
      exists s, calls (lpostc_next gv into_iter scan) k (lpostc_new (lab t) []) ⇓ Ok (outs (map (context_at gv) L'), s) /\ Permutation (ltc_log s) (entered k L').
    Proof.
      intros Hc.
      unshelve epose proof (follow _ _ _ (fun F => F) _ (postc_follow gv into_iter scan gv0 into0 W W_shape W_nil W_le W_scan) (more_lpostc gv into_iter scan) k (postc_new t []) (lpostc_new (lab t) []) _ _ _ Hc) as (s2 & Hc2 & Hlog & _).
      - split; [constructor|]; split; [reflexivity|]; split; [reflexivity|]; split; [reflexivity|]; split; [reflexivity|]; split; [reflexivity|split; [reflexivity|exact Hw]].
      - rewrite outs_ctx in Hc2; exists s2; split; [exact Hc2|]; rewrite logs_ctx in Hlog.
        apply entered_perm; rewrite Hlog; apply Permutation_app_head; clear Hlog Hc2 Ht Hw.
        destruct k as [|j].
        + destruct Hc as [F HF]; specialize (HF F (le_n F)); cbn in HF; injection HF as <-; constructor.
        + pose proof (conv_last (postcb_next gv0 into0) postc_get) as Hl; specialize (Hl ltac:(unfold postcb_next; intros F s x s'; destruct (postc_advance_with gv0 into0 (postcb_body gv0 into0) F s); try discriminate; cbn [bindR]; intros [= <- <-]; reflexivity)).
          specialize (Hl _ _ _ _ Hc); rewrite nth_outputs in Hl; injection Hl as Hl; rewrite nth_error_map in Hl; rewrite <- HL, nth_error_map.
          unfold postc_get in Hl; destruct (nth_error L j) as [p|]; cbn [option_map] in Hl |- *.
          * destruct (pt_anc s1) as [|a l]; [discriminate|]; injection Hl as _ Hl _; cbn [rev] in Hl; rewrite map_app in Hl.
            apply app_inj_tail in Hl as [Hl _]; unfold pos_map; cbn [pos_above tl]; rewrite Hl, rev_involutive; apply Permutation_refl.
          * destruct (pt_anc s1); [constructor|discriminate].
    Qed.
  End Post.
End Runs.

(** ** The relations *)
Section Trees.
  Context {Nd V C It : Type}.
  Variable gv : Nd -> V * C.
  Variable into_iter : C -> It.
  Variable poll : It -> option Nd * It.
  Local Notation kids n := (into_iter (nkids gv n)).

  Fixpoint uptos (m : nat) (it : It) (l : list (tree Nd)) : Prop :=
    match m with
    | 0 => True
    | S m' =>
        match l with
        | [] => exists it', poll it = (None, it')
        | t :: l' => exists it', poll it = (Some (root t), it') /\ uptos m' it' l' /\ uptos m' (kids (root t)) (subs t)
        end
    end.

  Lemma uptos_le : forall m it l, uptos (S m) it l -> uptos m it l.
  Proof.
    induction m as [|m IH]; intros it l H; [exact I|].
    destruct l as [|t l]; [exact H|]; destruct H as (it' & H1 & H2 & H3); exists it'; auto.
  Qed.
  Lemma uptos_poll : forall m it l, uptos (S m) it l ->
    match l with
    | [] => exists it', poll it = (None, it')
    | t :: l' => exists it', poll it = (Some (root t), it') /\ uptos m it' l' /\ uptos m (kids (root t)) (subs t)
    end.
  Proof. intros m it [|t l] H; exact H. Qed.

  Lemma uptos_cut b : forall m d b' it, m <= b' -> m <= b -> m <= S d ->
    uptos m it (map (cut gv into_iter poll d b) (first_items poll b' it)).
  Proof.
    induction m as [|m IH]; intros d b' it H1 H2 H3; [exact I|].
    destruct b' as [|b']; [lia|]; cbn [first_items].
    destruct (poll it) as [[n|] it'] eqn:E; cbn [map uptos]; [|exists it'; exact E].
    exists it'; split; [destruct d; exact E|]; split; [apply IH; lia|].
    destruct d as [|d]; [replace m with 0 by lia; exact I|]; cbn [root subs cut]; apply IH; lia.
  Qed.
  Lemma upto_cut m d b n : m <= d -> m <= b -> Un gv into_iter uptos m (cut gv into_iter poll d b n).
  Proof.
    intros H1 H2; unfold Un; destruct d as [|d]; cbn [cut root subs]; [replace m with 0 by lia; exact I|].
    apply uptos_cut; lia.
  Qed.
  Lemma root_cut d b n : root (cut gv into_iter poll d b n) = n.
  Proof. destruct d; reflexivity. Qed.

  Lemma wholes_poll it l : wholes gv into_iter poll it l ->
    match l with
    | [] => exists it', poll it = (None, it')
    | t :: l' => exists it', poll it = (Some (root t), it') /\ wholes gv into_iter poll it' l' /\ wholes gv into_iter poll (kids (root t)) (subs t)
    end.
  Proof. intros [it0 it' E|it0 c it' t ts E Hc Hts]; [eauto|]; exists it'; destruct Hc; auto. Qed.
  Lemma whole_root n t : whole gv into_iter poll n t -> root t = n /\ Un gv into_iter (fun _ => wholes gv into_iter poll) 0 t.
  Proof. intros [n0 ts H]; split; [reflexivity|exact H]. Qed.

  Lemma first_items_length b : forall it, length (first_items poll b it) <= b.
  Proof. induction b as [|b IH]; intros it; cbn; [lia|]; destruct (poll it) as [[n|] it']; cbn; [specialize (IH it'); lia|lia]. Qed.
  Lemma small_cut b : (N.of_nat b <= usize_max)%N -> forall d n, small_tree (cut gv into_iter poll d b n).
  Proof.
    intros Hb; unfold small_tree; induction d as [|d IH]; intros n; cbn.
    - constructor; [cbn; unfold usize_max; lia|constructor].
    - constructor.
      + cbn [subs]; rewrite map_length; pose proof (first_items_length b (into_iter (snd (gv n)))); lia.
      + apply Forall_forall; intros x Hx; apply in_flat_map in Hx as (u & Hu & Hx).
        rewrite map_map in Hu; apply in_map_iff in Hu as (c & <- & Hc); specialize (IH c); rewrite Forall_forall in IH; apply IH, Hx.
  Qed.

  (** n-ary contexts *)
  Section Nary.
    Variable U : nat -> It -> list (tree Nd) -> Prop.
    Hypothesis U_le : forall m it l, U (S m) it l -> U m it l.
    Hypothesis U_poll : forall m it l, U (S m) it l ->
      match l with
      | [] => exists it', poll it = (None, it')
      | t :: l' => exists it', poll it = (Some (root t), it') /\ U m it' l' /\ U m (kids (root t)) (subs t)
      end.
    Definition Us (m : nat) (it : It) (l : list (option (tree Nd))) : Prop := exists ts, l = map Some ts /\ U m it ts.

    Lemma Us_of m t : Un gv into_iter U m t -> Uc gv into_iter tree_gvc (map Some) Us m t.
    Proof. intros H; unfold Uc, Us; rewrite nval_tree; exists (subs t); split; [destruct t; reflexivity|exact H]. Qed.
    Lemma Us_le' m it l : Us (S m) it l -> Us m it l.
    Proof. intros (ts & -> & H); exists ts; auto. Qed.
    Lemma Us_scan m it l path found l' path' : Us (S m) it l -> prec_scan l path = Ok (found, l', path') ->
      exists it', nary_scan poll it path = Ok (option_map (nval tree_gvc) found, it', path') /\
        (forall t, found = Some t -> Us m it' l' /\ Uc gv into_iter tree_gvc (map Some) Us m t).
    Proof.
      intros (ts & -> & H); apply U_poll in H; unfold nary_scan; destruct ts as [|t ts]; cbn [map prec_scan].
      - destruct H as (it' & ->); intros [= <- <- <-]; exists it'; split; [reflexivity|discriminate].
      - destruct H as (it' & -> & H1 & H2); destruct (incr_last path); try discriminate; cbn [bindR]; intros [= <- <- <-].
        exists it'; cbn [option_map]; rewrite nval_tree; split; [reflexivity|]; intros u [= <-]; split; [exists ts; auto|apply Us_of, H2].
    Qed.
    Lemma Us_fetch m it l k found l' k' : Us (S m) it l -> bfsc_skip l k = Ok (found, l', k') ->
      exists it', nary_fetch poll it k = Ok (option_map (nval tree_gvc) found, it', k') /\
        (forall t, found = Some t -> Us m it' l' /\ Uc gv into_iter tree_gvc (map Some) Us m t).
    Proof.
      intros (ts & -> & H); apply U_poll in H; unfold nary_fetch; destruct ts as [|t ts]; cbn [map bfsc_skip].
      - destruct H as (it' & ->); intros [= <- <- <-]; exists it'; split; [reflexivity|discriminate].
      - destruct H as (it' & -> & H1 & H2); intros [= <- <- <-].
        exists it'; cbn [option_map]; rewrite nval_tree; split; [reflexivity|]; intros u [= <-]; split; [exists ts; auto|apply Us_of, H2].
    Qed.

    Variable t : tree Nd.
    Variable k : nat.
    Hypothesis Ht : Un gv into_iter U k t.
    Hypothesis Hs : small_tree t.
    Local Notation outs l := (map (nth_error l) (seq 0 k)).

    Lemma pos_lab (o : forall X, tree X -> list X) : orderly o -> map (pos_map (nval tree_gvc)) (o _ (annotate [] [] (subtrees t))) = o _ (positions t).
    Proof.
      intros Ho; rewrite <- Ho; pose proof (annotate_map (nval tree_gvc) (subtrees t) [] []) as E; cbn [map] in E; rewrite <- E.
      rewrite (tree_map_ext _ root) by apply nval_tree; rewrite subtrees_root; reflexivity.
    Qed.

    Lemma run_prec_nary : exists s, calls (lprec_next gv into_iter (nary_scan poll)) k (lprec_new (root t) []) ⇓ Ok (outs (map (context_at gv) (preorder (positions t))), s) /\
      rev (lpc_log s) = firstn k (preorder t).
    Proof.
      destruct (precb_yields tree_gvc (map Some) _ _ [] (slot_law_nary tree_gvc subtrees node_tree_tree) (small_law_nary tree_gvc subtrees node_tree_tree) t (small_tree_nodes t Hs) k) as (s1 & Hc).
      destruct (run_prec gv into_iter (nary_scan poll) tree_gvc (map Some) Us Us_le' Us_scan t k (Us_of k t Ht) _ _ (pos_lab (@preorder) orderly_pre) s1 Hc) as (s & H1 & H2).
      rewrite nval_tree in H1; exists s; split; [exact H1|]; rewrite H2, <- firstn_map, (here_positions (@preorder) orderly_pre); reflexivity.
    Qed.
    Lemma run_bfsc_nary : exists s, calls (lbfsc_next gv into_iter (nary_fetch poll)) k (lbfsc_new gv (root t) []) ⇓ Ok (outs (map (context_at gv) (bfs (positions t))), s) /\
      rev (lbc_log s) = firstn (Nat.max 1 k) (bfs t).
    Proof.
      destruct (bfscb_yields tree_gvc (map Some) _ _ [] t (slot_law_nary tree_gvc subtrees node_tree_tree) (small_law_nary tree_gvc subtrees node_tree_tree) (small_tree_nodes t Hs) k) as (s1 & Hc).
      destruct (run_bfsc gv into_iter (nary_fetch poll) tree_gvc (map Some) Us Us_le' Us_fetch t k (Us_of k t Ht) _ _ (pos_lab (@bfs) orderly_bfs) s1 Hc) as (s & H1 & H2).
      rewrite nval_tree in H1; exists s; split; [exact H1|]; rewrite H2; destruct k as [|k'].
      - rewrite nval_tree; unfold bfs; destruct t; reflexivity.
      - rewrite <- firstn_map, (here_positions (@bfs) orderly_bfs); reflexivity.
    Qed.
  End Nary.

  (** n-ary contexts in postorder *)
  Section NaryPost.
    Variable W : nat -> list It -> list (list (tree Nd)) -> Prop.
    Hypothesis W_shape : forall m q2 q1, W m q2 q1 -> length q2 = length q1.
    Hypothesis W_nil : forall m, W m [] [].
    Hypothesis W_le : forall m q2 q1, W (S m) q2 q1 -> W m q2 q1.
    Hypothesis W_poll : forall m it q2 l q1, W (S m) (it :: q2) (l :: q1) ->
      match l with
      | [] => exists it', poll it = (None, it') /\ W m q2 q1
      | t :: l' => exists it', poll it = (Some (root t), it') /\ W (S m) (kids (root t) :: it' :: q2) (subs t :: l' :: q1)
      end.
    Definition Ws (m : nat) (q2 : list It) (q1 : list (list (option (tree Nd)))) : Prop := exists ls, q1 = map (map Some) ls /\ W m q2 ls.

    Lemma Ws_scan m it q2 l q1 path found l' path' : Ws (S m) (it :: q2) (l :: q1) -> prec_scan l path = Ok (found, l', path') ->
      exists it', nary_scan poll it path = Ok (option_map (nval tree_gvc) found, it', path') /\
        match found with
        | Some t => Ws (S m) (kids (nval tree_gvc t) :: it' :: q2) (map Some (nkids tree_gvc t) :: l' :: q1)
        | None => Ws m q2 q1
        end.
    Proof.
      intros (ls & E & H); destruct ls as [|ts ls]; [discriminate|]; injection E as -> ->; apply W_poll in H; unfold nary_scan; destruct ts as [|t ts]; cbn [map prec_scan].
      - destruct H as (it' & -> & H); intros [= <- <- <-]; exists it'; split; [reflexivity|exists ls; auto].
      - destruct H as (it' & -> & H); destruct (incr_last path); try discriminate; cbn [bindR]; intros [= <- <- <-].
        exists it'; cbn [option_map]; rewrite nval_tree; split; [reflexivity|]; exists (subs t :: ts :: ls); split; [destruct t; reflexivity|exact H].
    Qed.

    Lemma run_postc_nary t k : W k [kids (root t)] [subs t] -> small_tree t ->
      exists s, calls (lpostc_next gv into_iter (nary_scan poll)) k (lpostc_new (root t) []) ⇓ Ok (map (nth_error (map (context_at gv) (postorder (positions t)))) (seq 0 k), s) /\
      Permutation (ltc_log s) (entered k (postorder (positions t))).
    Proof.
      intros Hw Hs.
      destruct (postcb_yields tree_gvc (map Some) _ _ [] (slot_law_nary tree_gvc subtrees node_tree_tree) (small_law_nary tree_gvc subtrees node_tree_tree) t (small_tree_nodes t Hs) k) as (s1 & Hc).
      destruct (run_postc gv into_iter (nary_scan poll) tree_gvc (map Some) t k _ _ (pos_lab t (@postorder) orderly_post) Ws) with (s1 := s1) as (s & H1 & H2).
      - intros m q2 q1 (ls & -> & H); rewrite map_length; eauto.
      - intros m; exists []; auto.
      - intros m q2 q1 (ls & -> & H); exists ls; auto.
      - apply Ws_scan.
      - rewrite nval_tree; exists [subs t]; split; [destruct t; reflexivity|exact Hw].
      - exact Hc.
      - rewrite nval_tree in H1; eauto.
    Qed.
  End NaryPost.
End Trees.
