(** * Inorder traversals of binary trees that are made as they are traversed. *)
From Coq Require Import Permutation.
From Verif Require Import Prelim PrelimFacts Spec SpecFacts SpecObs SpecEdit SpecLazy ModelNode NodeFacts ModelIn ModelLazyIn FuelMono.
From Verif Require Import Slots ProofsPlain ProofsPre ProofsPost ProofsIn ProofsExact ProofsTree ProofsEdit ProofsOwnMore ProofsLazy ProofsLazyCtx ProofsLazyInst ProofsLazyRun ProofsLazyDeep.

(** The nodes whose left subtree is being traversed. *)
Fixpoint wl {A} (anc : list A) (st : list status) : list A :=
  match anc, st with
  | n :: anc', WentLeft :: st' => n :: wl anc' st'
  | _ :: anc', _ :: st' => wl anc' st'
  | _, _ => []
  end.
Definition opens (st : list status) : Prop := Forall (fun s => s <> ReturnedSelf) st.

Lemma wl_map {A B} (f : A -> B) : forall anc st, wl (map f anc) st = map f (wl anc st).
Proof. induction anc as [|a anc IH]; intros [|[] st]; cbn; rewrite ?IH; reflexivity. Qed.
Lemma wl_combine {A} : forall (anc : list A) st, opens st -> length anc = length st ->
  wl anc st = map snd (filter (fun x => fst x =? 0) (combine (map seg st) anc)).
Proof.
  induction anc as [|a anc IH]; intros [|s st] Ho Hl; try discriminate; [reflexivity|]; injection Hl as Hl; inversion Ho; subst.
  destruct s; cbn; [rewrite IH by assumption; reflexivity|congruence|apply IH; assumption].
Qed.
Lemma combine_app' {A B} (a a' : list A) (b b' : list B) : length a = length b -> combine (a ++ a') (b ++ b') = combine a b ++ combine a' b'.
Proof. revert b; induction a as [|x a IH]; intros [|y b]; try discriminate; intros H; [reflexivity|]; cbn; rewrite IH by (cbn in H; lia); reflexivity. Qed.
Lemma combine_rev {A B} (a : list A) : forall (b : list B), length a = length b -> combine (rev a) (rev b) = rev (combine a b).
Proof.
  induction a as [|x a IH]; intros [|y b]; try discriminate; intros H; [reflexivity|]; cbn in *; rewrite combine_app' by (rewrite !rev_length; lia).
  rewrite IH by lia; reflexivity.
Qed.
Lemma filter_perm {A} (f : A -> bool) l l' : Permutation l l' -> Permutation (filter f l) (filter f l').
Proof. induction 1; cbn; [constructor|destruct (f x); auto|destruct (f x), (f y); try apply perm_swap; apply Permutation_refl|etransitivity; eauto]. Qed.

Section LazyIn.
  Context {Nd V : Type}.
  Variable gvcb : Nd -> V * (option Nd * option Nd).
  Local Notation value := (nval gvcb).
  Local Notation kl n := (fst (nkids gvcb n)).
  Local Notation kr n := (snd (nkids gvcb n)).
  Local Notation bpo := (bpart_opt gvcb).
  Local Notation bpart := (bpart gvcb).

  Fixpoint Q (anc : list Nd) (st : list status) (r2 : list (option Nd)) (r1 : list (option (btree Nd))) : Prop :=
    match anc, st with
    | [], [] => r2 = [] /\ r1 = []
    | n :: anc', s :: st' =>
        match s, r2, r1 with
        | WentRight, _, _ => Q anc' st' r2 r1
        | WentLeft, o2 :: r2', o1 :: r1' => o2 = kr n /\ Q anc' st' r2' r1'
        | ReturnedSelf, o2 :: r2', o1 :: r1' => bpo o2 o1 /\ Q anc' st' r2' r1'
        | _, _, _ => False
        end
    | _, _ => False
    end.
  Fixpoint iclaims (t : btree Nd) : list Prop :=
    match t with
    | BNode n l r =>
        match l with Some u => iclaims u | None => [] end ++
        (bpo (kl n) l /\ bpo (kr n) r) :: match r with Some u => iclaims u | None => [] end
    end.
  Definition iclaims_opt (o : option (btree Nd)) : list Prop := match o with Some u => iclaims u | None => [] end.
  Fixpoint cl (anc : list Nd) (st : list status) (r1 : list (option (btree Nd))) : list Prop :=
    match anc, st with
    | n :: anc', s :: st' =>
        match s, r1 with
        | WentRight, _ => cl anc' st' r1
        | WentLeft, o1 :: r1' => bpo (kr n) o1 :: iclaims_opt o1 ++ cl anc' st' r1'
        | ReturnedSelf, o1 :: r1' => iclaims_opt o1 ++ cl anc' st' r1'
        | _, _ => []
        end
    | _, _ => []
    end.

  Definition segs (st : list status) : list N := map (fun s => N.of_nat (seg s)) st.

  Definition Sim (s1 : inc (btree Nd) Nd) (s2 : inc Nd V) : Prop :=
    Q (ic_anc s1) (ic_status s1) (ic_right s2) (ic_right s1) /\
    ic_path s2 = ic_path s1 /\ ic_anc s2 = map value (ic_anc s1) /\ ic_status s2 = ic_status s1 /\
    ic_conts s2 = map (nkids gvcb) (wl (ic_anc s1) (ic_status s1)) /\ length (ic_conts s1) = length (wl (ic_anc s1) (ic_status s1)) /\
    ic_path s1 = segs (tl (ic_status s1)) /\ opens (tl (ic_status s1)).
  Definition cl_of (s1 : inc (btree Nd) Nd) : list Prop := cl (ic_anc s1) (ic_status s1) (ic_right s1).
  Definition wl_of {X} (s1 : inc X Nd) : list Nd := wl (ic_anc s1) (ic_status s1).
  Definition rested (s1 : inc (btree Nd) Nd) : Prop := match ic_status s1 with [] | ReturnedSelf :: _ => True | _ => False end.

  Lemma bpo_some o t : bpo o (Some t) -> o = Some (broot t) /\ bpart (broot t) t.
  Proof. intros H; inversion H as [|n u Hu]; subst; assert (broot t = n) as <- by (destruct Hu; reflexivity); auto. Qed.
  Lemma bpo_none o : bpo o None -> o = None.
  Proof. intros H; inversion H; reflexivity. Qed.

  Local Notation hctx := (hctx (C0 := option (btree Nd) * option (btree Nd)) gvcb).

  Lemma inc_find_loop F m : forall s1 s2 r, Sim s1 s2 -> hold (S m) (cl_of s1) -> loop inc_find_body F s1 = Ok r ->
    exists r', loop inc_find_body F s2 = Ok r' /\
      match r with
      | Return u1 => exists u2, r' = Return u2 /\ Sim u1 u2 /\ hold m (cl_of u1) /\ rested u1 /\
          inc_get u2 = option_map hctx (inc_get u1) /\ Permutation (wl_of s1) (clast (inc_get u1) ++ wl_of u1)
      | Descend t u1 => exists u2, r' = Descend (broot t) u2 /\ Sim u1 u2 /\ opens (ic_status u1) /\ bpart (broot t) t /\
          hold (S m) (iclaims t ++ cl_of u1) /\ wl_of s1 = wl_of u1
      end.
  Proof.
    induction F as [|F IH]; intros [r1 p1 a1 ch1 c1 st] [r2 p2 a2 ch2 c2 st2] r (HQ & Hp & Ha & Hst & Hc & Hlen & Hseg & Hop) Hh; [discriminate|];
      unfold cl_of, wl_of in *; cbn [ic_right ic_path ic_anc ic_children ic_conts ic_status] in *; subst st2 p2 a2 c2.
    cbn [loop]; unfold inc_find_body at 1 3; cbn [ic_right ic_path ic_anc ic_children ic_conts ic_status].
    destruct st as [|s st].
    - destruct a1 as [|n a1]; [|destruct HQ]; destruct HQ as [-> ->]; intros [= <-]; eexists; split; [reflexivity|].
      eexists; split; [reflexivity|]; split; [repeat split; auto; constructor|]; split; [apply hold_nil|]; split; [exact I|]; split; [reflexivity|].
      apply Permutation_refl.
    - destruct a1 as [|n a1]; [destruct HQ|]; cbn [tl] in *; destruct s; cbn [Q wl cl map] in *.
      + (* WentLeft *)
        destruct r2 as [|o2 r2]; [destruct HQ|]; destruct r1 as [|o1 r1]; [destruct HQ|]; destruct HQ as [-> HQ].
        destruct c1 as [|c c1]; [discriminate|]; injection Hlen as Hlen; cbn [bindR].
        intros [= <-]; eexists; split; [reflexivity|]; eexists; split; [reflexivity|].
        apply hold_cons in Hh as [Hb Hh].
        split; [unfold Sim; cbn [ic_right ic_path ic_anc ic_children ic_conts ic_status Q wl tl map]; repeat split; auto|].
        split; [exact Hh|]; split; [exact I|]; unfold inc_get, wl_of, hctx; cbn [ic_right ic_path ic_anc ic_children ic_conts ic_status wl map option_map c_path c_ancestors c_children].
        rewrite rev_involutive; cbn [hd_error option_map]; split.
        * rewrite map_rev; reflexivity.
        * rewrite clast_last; apply Permutation_refl.
      + (* ReturnedSelf *)
        destruct r2 as [|o2 r2]; [destruct HQ|]; destruct r1 as [|o1 r1]; [destruct HQ|]; destruct HQ as [Hb HQ].
        destruct o1 as [t|].
        * apply bpo_some in Hb as [-> Hb]; cbn [bindR]; intros [= <-]; eexists; split; [reflexivity|]; eexists; split; [reflexivity|].
          split; [unfold Sim; cbn [ic_right ic_path ic_anc ic_children ic_conts ic_status Q wl tl map]; repeat split; auto|].
          split; [constructor; [discriminate|exact Hop]|]; split; [exact Hb|]; split; [exact Hh|reflexivity].
        * apply bpo_none in Hb as ->; cbn [bindR]; intros E.
          apply (IH _ (mkInc r2 p1 (map value (n :: a1)) ch2 (map (nkids gvcb) (wl a1 st)) (WentRight :: st))) in E; [exact E| |exact Hh].
          unfold Sim; cbn [ic_right ic_path ic_anc ic_children ic_conts ic_status Q wl tl map]; repeat split; auto.
      + (* WentRight *)
        cbn [bindR]; intros E; apply (IH _ (mkInc r2 (tl p1) (map value a1) ch2 (map (nkids gvcb) (wl a1 st)) st)) in E; [exact E| |exact Hh].
        unfold Sim; cbn [ic_right ic_path ic_anc ic_children ic_conts ic_status Q wl tl map]; repeat split; auto.
        * rewrite Hseg; destruct st; reflexivity.
        * destruct st; [constructor|inversion Hop; assumption].
  Qed.

  Lemma segs_push st : push_segment st (segs (tl st)) = segs st.
  Proof. destruct st as [|[] st]; reflexivity. Qed.

  Lemma iclaims_left n l r : Forall2 (fun P R : Prop => P -> R) (iclaims (BNode n l r)) (iclaims_opt l ++ bpo (kr n) r :: iclaims_opt r).
  Proof. cbn [iclaims]; apply Forall2_app; [apply impl_refl|constructor; [intros []; assumption|apply impl_refl]]. Qed.

  (** Going down to the left: the state on which the loop ends has a node with no left child on top. *)
  Lemma inc_descend_loop F m : forall t s1 s2 u1 log, Sim s1 s2 -> opens (ic_status s1) -> bpart (broot t) t -> hold (S m) (iclaims t ++ cl_of s1) ->
    loop (inc_descend_body btree_gvcb) F (Some t, s1) = Ok u1 ->
    exists new u2, loop (linc_descend_body gvcb) F (Some (broot t), (log, s2)) = Ok (new ++ log, u2) /\ Sim u1 u2 /\ hold (S m) (cl_of u1) /\
      wl_of u1 = new ++ wl_of s1 /\ exists st, ic_status u1 = WentLeft :: st.
  Proof.
    induction F as [|F IH]; intros t [r1 p1 a1 ch1 c1 st] [r2 p2 a2 ch2 c2 st2] u1 log (HQ & Hp & Ha & Hst & Hc & Hlen & Hseg & Hop) Hop' Hb Hh; [discriminate|];
      unfold cl_of, wl_of in *; cbn [ic_right ic_path ic_anc ic_children ic_conts ic_status] in *; subst st2 p2 a2 c2.
    destruct t as [n l r]; cbn [broot] in *; cbn [loop]; unfold inc_descend_body at 1, linc_descend_body at 1; cbn [btree_gvcb]; rewrite (gv_eq gvcb n); destruct (nkids gvcb n) as [k1 k2] eqn:Ek.
    cbn [ic_right ic_path ic_anc ic_children ic_conts ic_status bindR].
    set (v1 := mkInc (r :: r1) (push_segment st p1) (n :: a1) ch1 ((l, r) :: c1) (WentLeft :: st)).
    set (v2 := mkInc (k2 :: r2) (push_segment st p1) (value n :: map value a1) ch2 ((k1, k2) :: map (nkids gvcb) (wl a1 st)) (WentLeft :: st)).
    assert (HS : Sim v1 v2).
    { unfold Sim, v1, v2; cbn [ic_right ic_path ic_anc ic_children ic_conts ic_status Q wl tl map length]; rewrite Ek.
      repeat split; auto; [rewrite Hseg; apply segs_push]. }
    assert (Hv : hold (S m) (iclaims_opt l ++ cl_of v1)).
    { refine (hold_impl _ _ _ _ Hh); unfold cl_of, v1; cbn [ic_right ic_anc ic_status cl].
      change (iclaims_opt l ++ bpo (kr n) r :: iclaims_opt r ++ cl a1 st r1) with (iclaims_opt l ++ (bpo (kr n) r :: iclaims_opt r) ++ cl a1 st r1).
      rewrite app_assoc; apply Forall2_app; [apply iclaims_left|apply impl_refl]. }
    assert (Hk : l = None -> k1 = None).
    { intros ->; cbn [iclaims app] in Hh; apply hold_cons in Hh as [[H _] _]; rewrite Ek in H; exact (bpo_none _ H). }
    assert (Hl : forall u, l = Some u -> k1 = Some (broot u) /\ bpart (broot u) u).
    { intros u ->; inversion Hb as [|? ? ? H1 H2]; subst; rewrite Ek in H1; apply bpo_some, H1. }
    destruct l as [u|].
    - destruct (Hl u eq_refl) as [-> Hu]; intros E.
      destruct (IH u v1 v2 u1 (n :: log) HS) as (new & u2 & E2 & H1 & H2 & H3 & H4); [constructor; [discriminate|exact Hop']|exact Hu|exact Hv|exact E|].
      exists (new ++ [n]), u2; rewrite <- !app_assoc; cbn [app]; repeat split; try apply H1; auto.
    - rewrite (Hk eq_refl); destruct F as [|F]; [discriminate|]; cbn [loop inc_descend_body linc_descend_body bindR]; intros [= <-].
      exists [n], v2; repeat split; try apply HS; auto; try exact Hv; exists st; reflexivity.
  Qed.

  (** Between calls *)
  Definition Rinc (m : nat) (Y : list (option (tree_context Nd (option (btree Nd) * option (btree Nd))))) (s1 : inc (btree Nd) Nd) (s2 : linc Nd V) : Prop :=
    (Y = [] /\ exists t, s1 = inc_new t [] /\ s2 = linc_new (broot t) [] /\ bpart (broot t) t /\ hold m (iclaims t)) \/
    (Sim s1 (snd s2) /\ hold m (cl_of s1) /\ rested s1 /\ Permutation (fst s2) (flat_map clast Y ++ wl_of s1)).

  Lemma Sim_start ch ch' : Sim (mkInc [] [] [] ch [] []) (mkInc [] [] [] ch' [] []).
  Proof. unfold Sim; cbn; repeat split; constructor. Qed.

  Lemma inc_follow F m Y s1 s2 x s1' : Rinc (S m) Y s1 s2 -> inc_next btree_gvcb F s1 = Ok (x, s1') ->
    exists s2', linc_next gvcb F s2 = Ok (option_map hctx x, s2') /\ Rinc m (Y ++ [x]) s1' s2'.
  Proof.
    assert (Hdown : forall t v1 v2 log, Sim v1 v2 -> opens (ic_status v1) -> bpart (broot t) t -> hold (S m) (iclaims t ++ cl_of v1) -> Permutation log (flat_map clast Y ++ wl_of v1) ->
      (s' <- (s'' <- loop (inc_descend_body btree_gvcb) F (Some t, v1) ;; st <- set_returned (ic_status s'') ;;
         match ic_conts s'' with [] => Panic | c :: conts => Ok (mkInc (ic_right s'') (ic_path s'') (ic_anc s'') (Some c) conts st) end) ;;
       Ok (inc_get s', s')) = Ok (x, s1') ->
      exists s2', (s' <- ('(log, s'') <- loop (linc_descend_body gvcb) F (Some (broot t), (log, v2)) ;; st <- set_returned (ic_status s'') ;;
         match ic_conts s'' with [] => Panic | c :: conts => Ok (log, mkInc (ic_right s'') (ic_path s'') (ic_anc s'') (Some c) conts st) end) ;;
       Ok (inc_get (snd s'), s')) = Ok (option_map hctx x, s2') /\ Rinc m (Y ++ [x]) s1' s2').
    { intros t v1 v2 log HS Hop Hb Hh HP.
      destruct (loop (inc_descend_body btree_gvcb) F (Some t, v1)) as [u1| | |] eqn:E; try discriminate; cbn [bindR].
      destruct (inc_descend_loop F m t v1 v2 u1 log HS Hop Hb Hh E) as (new & u2 & -> & HS' & Hh' & Hw & st & Hst); cbn [bindR].
      destruct u1 as [r1 p1 a1 ch1 c1 st1], u2 as [r2 p2 a2 ch2 c2 st2]; unfold Sim, cl_of, wl_of in *; cbn [ic_right ic_path ic_anc ic_children ic_conts ic_status] in *; subst st1.
      destruct HS' as (HQ & -> & -> & -> & -> & Hlen & Hseg & Hop'); cbn [tl set_returned bindR] in *.
      destruct a1 as [|n a1]; [destruct HQ|]; cbn [Q wl cl] in *.
      destruct r2 as [|o2 r2]; [destruct HQ|]; destruct r1 as [|o1 r1]; [destruct HQ|]; destruct HQ as [-> HQ].
      destruct c1 as [|c c1]; [discriminate|]; injection Hlen as Hlen; cbn [bindR map]; intros [= <- <-].
      apply hold_cons in Hh' as [Hk Hh'].
      eexists; split; [unfold inc_get; cbn [snd ic_anc ic_path ic_children option_map]; unfold hctx; cbn [c_path c_ancestors c_children];
        rewrite rev_involutive; cbn [hd_error option_map map]; rewrite map_rev; reflexivity|].
      right; cbn [snd fst]; split; [unfold Sim; cbn [ic_right ic_path ic_anc ic_children ic_conts ic_status Q wl tl map]; repeat split; auto|].
      split; [exact Hh'|]; split; [exact I|].
      unfold wl_of; cbn [ic_anc ic_status wl]; rewrite flat_map_app; cbn [flat_map]; unfold inc_get; cbn [ic_anc]; rewrite app_nil_r, clast_last, <- app_assoc; cbn [app].
      rewrite HP, Permutation_app_swap_app; apply Permutation_app_head; rewrite <- Hw; apply Permutation_refl. }
    intros [(-> & t & -> & -> & Hb & Hh)|(HS & Hh & Hr & HP)]; unfold inc_next, linc_next, inc_advance, linc_advance.
    - destruct F as [|F]; [discriminate|].
      change (loop inc_find_body (S F) (inc_new t [])) with (Ok (Descend t (mkInc [] [] [] None [] [])) : Res (found (inc (btree Nd) Nd))).
      cbn [linc_new]; change (loop inc_find_body (S F) (inc_new (broot t) [])) with (Ok (Descend (broot t) (mkInc [] [] [] None [] [])) : Res (found (inc Nd V))).
      cbn [bindR]; apply Hdown; [apply Sim_start|constructor|exact Hb| |constructor].
      unfold cl_of; cbn; rewrite app_nil_r; exact Hh.
    - destruct s2 as [log s2]; cbn [fst snd] in *.
      destruct (loop inc_find_body F s1) as [r| | |] eqn:E; try discriminate; cbn [bindR].
      destruct (inc_find_loop F m s1 s2 r HS Hh E) as (r' & -> & Hf); cbn [bindR]; destruct r as [u1|t u1].
      + destruct Hf as (u2 & -> & HS' & Hh' & Hr' & Hg & Hw); cbn [bindR]; intros [= <- <-]; exists (log, u2); cbn [snd]; rewrite Hg; split; [reflexivity|].
        right; cbn [snd fst]; split; [exact HS'|]; split; [exact Hh'|]; split; [exact Hr'|].
        rewrite HP, flat_map_app; cbn [flat_map]; rewrite app_nil_r, <- app_assoc; apply Permutation_app_head, Hw.
      + destruct Hf as (u2 & -> & HS' & Hop & Hb & Hh' & Hw); rewrite Hw in HP.
        exact (Hdown t u1 u2 log HS' Hop Hb Hh' HP).
  Qed.
  Lemma more_linc s : more (fun f => linc_next gvcb f s).
  Proof. unfold linc_next, linc_advance; destruct s as [log s]; more_tac. Qed.

  Lemma Q_length : forall anc st r2 r1, Q anc st r2 r1 -> length anc = length st.
  Proof.
    induction anc as [|n anc IH]; intros [|s st] r2 r1 H; try destruct H; [reflexivity|]; cbn [length]; f_equal.
    cbn [Q] in H; destruct s, r2, r1; try destruct H; eauto.
  Qed.

  Lemma in_lab (t : btree Nd) : map (pos_map (nval btree_gvcb)) (inorder (bannotate [] [] (bsubtrees t))) = inorder (bpositions t).
  Proof.
    rewrite <- inorder_map; pose proof (bannotate_map (nval btree_gvcb) (bsubtrees t) [] []) as E; cbn [map] in E; rewrite <- E.
    rewrite (btree_map_ext _ broot) by apply nval_btree; rewrite bsubtrees_root; reflexivity.
  Qed.

  Lemma run_inc t k : bpart (broot t) t -> hold k (iclaims t) ->
    exists s, calls (linc_next gvcb) k (linc_new (broot t) []) ⇓ Ok (map (nth_error (map (context_at gvcb) (inorder (bpositions t)))) (seq 0 k), s) /\
      Permutation (fst s) (entered_inorder k (inorder (bpositions t))).
  Proof.
    intros Hb Hh; destruct (inc_yields btree_gvcb bsubtrees [] node_btree_btree t k) as (s1 & Hc); cbn [map] in Hc.
    destruct (follow _ _ _ (fun F => F) _ inc_follow more_linc k (inc_new t []) (linc_new (broot t) []) _ _ (or_introl (conj eq_refl (ex_intro _ t (conj eq_refl (conj eq_refl (conj Hb Hh)))))) Hc) as (s2 & Hc2 & HR).
    rewrite (outs_ctx gvcb btree_gvcb k _ _ (in_lab t)) in Hc2; exists s2; split; [exact Hc2|].
    unfold entered_inorder; rewrite <- (logs_ctx btree_gvcb k _ _ (in_lab t)).
    destruct HR as [(HY & t' & -> & -> & _)|(HS & _ & Hr & HP)]; [rewrite HY; destruct k; [constructor|discriminate]|].
    rewrite HP; apply Permutation_app_head; clear HP Hc2 Hh; destruct k as [|j].
    - destruct Hc as [F HF]; specialize (HF F (le_n F)); cbn in HF; injection HF as <-; constructor.
    - pose proof (conv_last (inc_next (@btree_gvcb Nd)) inc_get) as Hl.
      specialize (Hl ltac:(unfold inc_next; intros F s x s'; destruct (inc_advance btree_gvcb F s); try discriminate; cbn [bindR]; intros [= <- <-]; reflexivity) _ _ _ _ Hc).
      rewrite nth_outputs in Hl; injection Hl as Hl; rewrite nth_error_map in Hl; rewrite <- (in_lab t), nth_error_map.
      destruct HS as (HQ & _ & _ & _ & _ & _ & Hseg & Hop); pose proof (Q_length _ _ _ _ HQ) as Hlen; unfold wl_of, rested, inc_get in *.
      destruct (nth_error _ j) as [p|]; cbn [option_map] in *.
      + destruct (ic_anc s1) as [|n anc]; [discriminate|]; destruct (ic_status s1) as [|[] st]; try discriminate; try contradiction.
        cbn [tl wl length] in *; injection Hlen as Hlen; unfold context_at in Hl; injection Hl as Hp Ha _.
        cbn [rev] in Ha; rewrite map_app in Ha; apply app_inj_tail in Ha as [Ha _].
        rewrite wl_combine by assumption; unfold turned_left, pos_map; cbn [pos_path pos_above]; rewrite Ha.
        apply Permutation_map, filter_perm.
        assert (Hs : pos_path p = rev (map seg st)).
        { assert (Hi : forall l l' : list nat, map N.of_nat l = map N.of_nat l' -> l = l').
          { induction l as [|a l IH]; intros [|b l']; try discriminate; [reflexivity|]; cbn; intros [= H1 H2]; f_equal; [lia|auto]. }
          apply Hi; rewrite Hp, Hseg; unfold segs; rewrite map_rev, map_map; reflexivity. }
        rewrite Hs, combine_rev by (rewrite map_length; lia); apply Permutation_rev.
      + destruct (ic_anc s1); [|discriminate]; constructor.
  Qed.
End LazyIn.

(** ** The other machines are projections *)
Section Projections.
  Context {Nd V : Type}.
  Variable gvcb : Nd -> V * (option Nd * option Nd).

  Lemma linco_descend_sim f s x : linc_descend_body gvcb f s = Ok x ->
    linco_descend_body gvcb f (snd_map (snd_map forget_inc) s) = Ok (sum_map (snd_map (snd_map forget_inc)) (snd_map forget_inc) x).
  Proof.
    destruct s as [[n|] [log [r p a ch co st]]]; cbn.
    - destruct (gvcb n) as [v [l r']]; intros [= <-]; reflexivity.
    - intros [= <-]; reflexivity.
  Qed.
  Lemma lina_descend_sim f s x : linc_descend_body gvcb f s = Ok x ->
    lina_descend_body gvcb f (snd_map (snd_map anc_inc) s) = Ok (sum_map (snd_map (snd_map anc_inc)) (snd_map anc_inc) x).
  Proof.
    destruct s as [[n|] [log [r p a ch co st]]]; cbn.
    - destruct (gvcb n) as [v [l r']]; intros [= <-]; reflexivity.
    - intros [= <-]; reflexivity.
  Qed.
  Lemma linco_next_sim f s o s' : linc_next gvcb f s = Ok (o, s') ->
    linco_next gvcb f (snd_map forget_inc s) = Ok (option_map no_children o, snd_map forget_inc s').
  Proof.
    unfold linc_next, linco_next, linc_advance, linco_advance; destruct s as [log s]; unfold snd_map at 1; cbn [fst snd].
    destruct (loop inc_find_body f s) as [r| | |] eqn:El; cbn [bindR]; try discriminate.
    rewrite (loop_sim_ok _ _ _ _ inco_find_sim f _ _ El); cbn [bindR].
    destruct r as [s1|n s1]; cbn [found_map].
    - cbn [bindR]; intros [= <- <-]; destruct s1 as [? ? [|] ? ? ?]; reflexivity.
    - destruct (loop (linc_descend_body gvcb) f (Some n, (log, s1))) as [[log' s2]| | |] eqn:Ed; cbn [bindR]; try discriminate.
      pose proof (loop_sim_ok _ _ _ _ linco_descend_sim f _ _ Ed) as Hd; unfold snd_map in Hd; cbn [fst snd] in Hd.
      rewrite Hd; cbn [bindR forget_inc io_status].
      destruct (set_returned (ic_status s2)); cbn [bindR]; try discriminate.
      destruct (ic_conts s2); cbn [bindR]; try discriminate.
      intros [= <- <-]; destruct s2 as [? ? [|] ? ? ?]; reflexivity.
  Qed.
  Lemma lina_next_sim f s o s' : linc_next gvcb f s = Ok (o, s') ->
    lina_next gvcb f (snd_map anc_inc s) = Ok (option_map c_ancestors o, snd_map anc_inc s').
  Proof.
    unfold linc_next, lina_next, linc_advance, lina_advance; destruct s as [log s]; unfold snd_map at 1; cbn [fst snd].
    destruct (loop inc_find_body f s) as [r| | |] eqn:El; cbn [bindR]; try discriminate.
    rewrite (loop_sim_ok _ _ _ _ ina_find_sim f _ _ El); cbn [bindR].
    destruct r as [s1|n s1]; cbn [found_map].
    - cbn [bindR]; intros [= <- <-]; destruct s1 as [? ? [|] ? ? ?]; reflexivity.
    - destruct (loop (linc_descend_body gvcb) f (Some n, (log, s1))) as [[log' s2]| | |] eqn:Ed; cbn [bindR]; try discriminate.
      pose proof (loop_sim_ok _ _ _ _ lina_descend_sim f _ _ Ed) as Hd; unfold snd_map in Hd; cbn [fst snd] in Hd.
      rewrite Hd; cbn [bindR anc_inc ia_status].
      destruct (set_returned (ic_status s2)); cbn [bindR]; try discriminate.
      destruct (ic_conts s2); cbn [bindR]; try discriminate.
      intros [= <- <-]; destruct s2 as [? ? [|] ? ? ?]; reflexivity.
  Qed.

  (** The plain iterator keeps the values of the nodes whose left subtree is being traversed. *)
  Fixpoint nwr (st : list status) : nat := match st with [] => 0 | WentRight :: st' => nwr st' | _ :: st' => S (nwr st') end.
  Definition shape (s : inc Nd V) : Prop := length (ic_anc s) = length (ic_status s) /\ length (ic_right s) = nwr (ic_status s) /\ opens (tl (ic_status s)).
  Lemma wl_nwr {A} : forall (anc : list A) st, length anc = length st -> opens st -> length (wl anc st) = nwr st.
  Proof.
    induction anc as [|a anc IH]; intros [|s st] Hl Ho; try discriminate; [reflexivity|]; injection Hl as Hl; inversion Ho; subst.
    destruct s; cbn; [rewrite IH by assumption; reflexivity|congruence|apply IH; assumption].
  Qed.
  Definition last_of {X} (x : option (tree_context V X)) : option V := match x with Some c => hd_error (rev (c_ancestors c)) | None => None end.
  Definition rest {Nd'} (s : inc Nd' V) : list V := wl (ic_anc s) (ic_status s).

  Lemma find_end F : forall (s : inc Nd V) r, shape s -> ic_right s = [] -> hd WentRight (ic_status s) = WentRight -> loop inc_find_body F s = Ok r ->
    exists u, r = Return u /\ ic_anc u = [] /\ ic_right u = [] /\ ic_status u = [] /\ rest s = [].
  Proof.
    induction F as [|F IH]; intros [r p a ch c st] x (Hl & Hr & Ho); [discriminate|]; unfold rest in *; cbn [ic_right ic_path ic_anc ic_children ic_conts ic_status] in *; intros -> Hst.
    cbn [loop]; unfold inc_find_body at 1; cbn [ic_right ic_path ic_anc ic_children ic_conts ic_status].
    destruct st as [|s st]; cbn [hd] in Hst; [intros [= <-]; destruct a; [|discriminate]; eexists; cbn; auto|subst s].
    destruct a as [|n a]; [discriminate|]; injection Hl as Hl; cbn [tl nwr length wl] in *; intros E.
    apply IH in E; [exact E|..]; cbn [ic_right ic_path ic_anc ic_children ic_conts ic_status tl]; [repeat split|reflexivity|].
    - exact Hl.
    - exact Hr.
    - destruct st; [constructor|inversion Ho; assumption].
    - destruct st as [|[] st]; [reflexivity|discriminate|discriminate|reflexivity].
  Qed.

  Lemma in_find F : forall (s : inc Nd V) r, shape s -> loop inc_find_body F s = Ok r ->
    match r with
    | Return u => shape u /\ (exists y, (y = inl (last_of (inc_get u), rest u, ic_right u) \/ rest s = [] /\ ic_anc u = [] /\ ic_right u = [] /\ ic_status u = [] /\ y = inr (None, [])) /\
        loop in_find_body F (ic_right s, rest s) = Ok y)
    | Descend n u => shape u /\ opens (ic_status u) /\ rest u = rest s /\ loop in_find_body F (ic_right s, rest s) = Ok (inr (Some n, ic_right u))
    end.
  Proof.
    induction F as [|F IH]; intros [r p a ch c st] x (Hl & Hr & Ho); [discriminate|]; unfold rest in *; cbn [ic_right ic_path ic_anc ic_children ic_conts ic_status] in *.
    cbn [loop]; unfold inc_find_body at 1; cbn [ic_right ic_path ic_anc ic_children ic_conts ic_status].
    destruct st as [|s st].
    - destruct a; [|discriminate]; destruct r; [|discriminate]; intros [= <-]; split; [repeat split; constructor|]; eexists; split; [left; reflexivity|reflexivity].
    - destruct a as [|n a]; [discriminate|]; injection Hl as Hl; cbn [tl] in Ho; destruct s; cbn [nwr wl] in *.
      + destruct c as [|c0 c]; [discriminate|]; intros [= <-]; split; [repeat split; cbn; auto|].
        eexists; split; [left; reflexivity|]; unfold in_find_body at 1; cbn [length]; rewrite (wl_nwr a st Hl Ho), Hr, Nat.eqb_refl.
        unfold inc_get, last_of; cbn [ic_anc c_ancestors ic_status ic_right wl hd_error tl]; rewrite rev_involutive; reflexivity.
      + assert (Hne : length r =? length (wl a st) = false) by (apply Nat.eqb_neq; rewrite (wl_nwr a st Hl Ho); lia).
        destruct r as [|o r]; [discriminate|]; injection Hr as Hr.
        assert (Hb : forall f, in_find_body f (o :: r, wl a st) = match r with [] => Ok (inr (inr (o, r))) | _ => match o with None => Ok (inl (r, wl a st)) | Some _ => Ok (inr (inr (o, r))) end end)
          by (intros f; unfold in_find_body; rewrite Hne; destruct r; reflexivity).
        assert (HS : forall ch, shape (mkInc r p (n :: a) ch c (WentRight :: st))) by (repeat split; cbn; auto).
        destruct o as [m|].
        * intros [= <-]; split; [apply HS|]; split; [constructor; [discriminate|exact Ho]|]; split; [reflexivity|]; rewrite Hb; destruct r; reflexivity.
        * cbn [bindR]; intros E; destruct r as [|o' r'].
          -- destruct (find_end F _ x (HS ch) eq_refl eq_refl E) as (u & -> & H1 & H2 & H3 & H4); unfold rest in H4; cbn in H4; rewrite Hb, H1, H2, H3, H4.
             split; [unfold shape; rewrite H1, H2, H3; repeat split; constructor|]; eexists; split; [right; repeat split|reflexivity].
          -- apply (IH _ x (HS ch)) in E; rewrite Hb; exact E.
      + cbn [bindR]; intros E.
        assert (HS : shape (mkInc r (tl p) a ch c st)) by (repeat split; cbn; auto; destruct st; [constructor|inversion Ho; assumption]).
        apply (IH _ x HS) in E; cbn [ic_right ic_anc ic_status] in E.
        assert (Hm : more (fun f => loop in_find_body f (r, wl a st))) by (apply more_loop; intros s f g _ _; reflexivity).
        destruct x as [u|m u].
        * destruct E as (H1 & y & H2 & H3); split; [exact H1|]; exists y; split; [exact H2|].
          change (loop in_find_body (S F) (r, wl a st) = Ok y); rewrite (Hm F (S F)) by (lia || (rewrite H3; discriminate)); exact H3.
        * destruct E as (H1 & H2 & H3 & H4); repeat split; try apply H1; try assumption.
          change (loop in_find_body (S F) (r, wl a st) = Ok (inr (Some m, ic_right u))); rewrite (Hm F (S F)) by (lia || (rewrite H4; discriminate)); exact H4.
  Qed.

  Lemma in_descend_sim F : forall cur (s u : inc Nd V) log log', length (ic_anc s) = length (ic_status s) -> length (ic_right s) = nwr (ic_status s) -> opens (ic_status s) ->
    loop (linc_descend_body gvcb) F (cur, (log, s)) = Ok (log', u) ->
    loop (lin_descend_body gvcb) F (log, (cur, ic_right s, rest s)) = Ok (log', (ic_right u, rest u)) /\
    length (ic_anc u) = length (ic_status u) /\ length (ic_right u) = nwr (ic_status u) /\ opens (ic_status u) /\
    (cur <> None -> exists st, ic_status u = WentLeft :: st) /\ (cur = None -> u = s).
  Proof.
    induction F as [|F IH]; intros cur [r p a ch c st] u log log' Hl Hr Ho; [discriminate|]; unfold rest in *; cbn [ic_right ic_path ic_anc ic_children ic_conts ic_status] in *.
    cbn [loop]; unfold linc_descend_body at 1, lin_descend_body at 1; destruct cur as [n|].
    - destruct (gvcb n) as [v [l r']]; cbn [bindR ic_right ic_path ic_anc ic_children ic_conts ic_status]; intros E.
      apply IH in E; cbn [ic_right ic_path ic_anc ic_children ic_conts ic_status length nwr wl] in *; [|lia|lia|constructor; [discriminate|exact Ho]].
      destruct E as (E & H1 & H2 & H3 & H4 & H5); repeat split; try assumption; try discriminate.
      intros _; destruct l as [x|]; [apply H4; discriminate|rewrite (H5 eq_refl); eexists; reflexivity].
    - intros [= <- <-]; repeat split; auto; congruence.
  Qed.

  Definition Rin (s1 : linc Nd V) (s2 : lin Nd V) : Prop :=
    fst s2 = fst s1 /\ in_right (snd s2) = ic_right (snd s1) /\ in_items (snd s2) = rest (snd s1) /\
    (shape (snd s1) \/ exists n, snd s1 = inc_new n []).
  Lemma lin_next_sim F s1 s2 x s1' : Rin s1 s2 -> linc_next gvcb F s1 = Ok (x, s1') ->
    exists s2', lin_next gvcb F s2 = Ok (last_of x, s2') /\ Rin s1' s2'.
  Proof.
    destruct s1 as [log s1], s2 as [log2 s2]; intros (H1 & H2 & H3 & H4); cbn [fst snd] in *; subst log2.
    unfold linc_next, lin_next, linc_advance; rewrite H2, H3.
    assert (Hdown : forall n (u : inc Nd V) (k : nat), length (ic_anc u) = length (ic_status u) -> length (ic_right u) = nwr (ic_status u) -> opens (ic_status u) ->
      (s' <- ('(log, s'') <- loop (linc_descend_body gvcb) F (Some n, (log, u)) ;; st <- set_returned (ic_status s'') ;;
         match ic_conts s'' with [] => Panic | c :: conts => Ok (log, mkInc (ic_right s'') (ic_path s'') (ic_anc s'') (Some c) conts st) end) ;;
       Ok (inc_get (snd s'), s')) = Ok (x, s1') ->
      exists s2', ('(log, (rights, items)) <- loop (lin_descend_body gvcb) F (log, (Some n, ic_right u, rest u)) ;; Ok (hd_error items, (log, mkIn rights (tl items) true))) = Ok (last_of x, s2') /\ Rin s1' s2').
    { intros n u _ Hl Hr Ho.
      destruct (loop (linc_descend_body gvcb) F (Some n, (log, u))) as [[log' v]| | |] eqn:E; try discriminate; cbn [bindR].
      destruct (in_descend_sim F _ _ _ _ _ Hl Hr Ho E) as (-> & G1 & G2 & G3 & G4 & _); cbn [bindR].
      destruct (G4 ltac:(discriminate)) as [st Est]; unfold rest; rewrite Est in *; cbn [set_returned bindR].
      destruct (ic_anc v) as [|a anc] eqn:Ea; [discriminate|]; destruct (ic_conts v) as [|c conts]; [discriminate|]; cbn [bindR snd wl hd_error tl]; intros [= <- <-].
      eexists; split; [unfold last_of, inc_get; cbn [ic_anc c_ancestors]; rewrite rev_involutive; reflexivity|].
      repeat split; unfold rest, shape; cbn [fst snd in_right in_items ic_right ic_anc ic_status wl tl]; auto.
      left; repeat split; cbn [nwr length] in *; auto; inversion G3; assumption. }
    destruct H4 as [H4|[n ->]].
    - destruct (loop inc_find_body F s1) as [r| | |] eqn:E; try discriminate; cbn [bindR].
      pose proof (in_find F s1 r H4 E) as Hf; destruct r as [u|n u].
      + destruct Hf as (Hs & y & Hy & ->); cbn [bindR snd]; intros [= <- <-]; destruct Hy as [->|(Hrs & Ha & Hr & Hst & ->)].
        * eexists; split; [reflexivity|]; repeat split; cbn [fst snd in_right in_items]; auto.
        * rewrite Hrs; destruct F as [|F']; [discriminate|]; cbn [loop lin_descend_body bindR hd_error tl]; unfold inc_get; rewrite Ha; eexists; split; [reflexivity|].
          repeat split; cbn [fst snd in_right in_items]; [rewrite Hr; reflexivity|unfold rest; rewrite Ha; reflexivity|left; exact Hs].
      + destruct Hf as (Hs & Ho & Hrs & ->); cbn [bindR]; rewrite <- Hrs; destruct Hs as (G1 & G2 & G3); apply (Hdown n u 0); assumption.
    - destruct F as [|F']; [discriminate|]; unfold rest; cbn [inc_new ic_right ic_anc ic_status wl].
      change (loop inc_find_body (S F') (inc_new n [])) with (Ok (Descend n (mkInc [] [] [] None [] [])) : Res (found (inc Nd V))).
      change (loop in_find_body (S F') ([Some n], @nil V)) with (Ok (inr (Some n, [])) : Res ((option V * list V * list (option Nd)) + (option Nd * list (option Nd)))).
      cbn [bindR]; apply (Hdown n (mkInc [] [] [] None [] []) 0); try reflexivity; constructor.
  Qed.

  Lemma more_lin s : more (fun f => lin_next gvcb f s).
  Proof. unfold lin_next; destruct s as [log s]; more_tac. Qed.
  Lemma more_lina s : more (fun f => lina_next gvcb f s).
  Proof. unfold lina_next, lina_advance; destruct s as [log s]; more_tac. Qed.
  Lemma more_linco s : more (fun f => linco_next gvcb f s).
  Proof. unfold linco_next, linco_advance; destruct s as [log s]; more_tac. Qed.
End Projections.
