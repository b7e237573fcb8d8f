(** * Inorder contexts that start on a path, over binary trees that are made as they are traversed.

    The simulation of ProofsLazyIn, without what it says about the path and about the calls of [get_value_and_children]. *)
From Coq Require Import Permutation.
From Verif Require Import Prelim PrelimFacts Spec SpecFacts SpecObs SpecEdit SpecLazy SpecStream ModelNode NodeFacts ModelIn ModelLazyIn ModelStream ModelStreamLazy FuelMono.
From Verif Require Import Slots ProofsPlain ProofsPre ProofsPost ProofsIn ProofsExact ProofsTree ProofsEdit ProofsOwnMore ProofsLazy ProofsLazyCtx ProofsLazyInst ProofsLazyRun ProofsLazyDeep ProofsLazyIn ProofsLazyInRun ProofsColl ProofsStream ProofsStreamLazy.

Section LazyIn.
  Context {Nd V : Type}.
  Variable gvcb : Nd -> V * (option Nd * option Nd).
  Local Notation value := (nval gvcb).
  Local Notation kl n := (fst (nkids gvcb n)).
  Local Notation kr n := (snd (nkids gvcb n)).
  Local Notation bpo := (bpart_opt gvcb).
  Local Notation bpart := (bpart gvcb).

  Local Notation Q := (Q gvcb).
  Local Notation iclaims := (iclaims gvcb).
  Local Notation iclaims_opt := (iclaims_opt gvcb).
  Local Notation cl := (cl gvcb).
  Local Notation cl_of := (cl_of gvcb).
  Local Notation bpo_none := (bpo_none gvcb).
  Local Notation bpo_some := (bpo_some gvcb).
  Local Notation iclaims_left := (iclaims_left gvcb).

  Definition Sim (s1 : inc (btree Nd) Nd) (s2 : inc Nd V) : Prop :=
    Q (ic_anc s1) (ic_status s1) (ic_right s2) (ic_right s1) /\
    ic_path s2 = ic_path s1 /\ ic_anc s2 = map value (ic_anc s1) /\ ic_status s2 = ic_status s1 /\
    ic_conts s2 = map (nkids gvcb) (wl (ic_anc s1) (ic_status s1)) /\ length (ic_conts s1) = length (wl (ic_anc s1) (ic_status s1)) /\
    opens (tl (ic_status s1)).

  Local Notation hctx := (hctx (C0 := option (btree Nd) * option (btree Nd)) gvcb).

  Lemma inc_find_loop F m : forall s1 s2 r, Sim s1 s2 -> hold (S m) (cl_of s1) -> loop inc_find_body F s1 = Ok r ->
    exists r', loop inc_find_body F s2 = Ok r' /\
      match r with
      | Return u1 => exists u2, r' = Return u2 /\ Sim u1 u2 /\ hold m (cl_of u1) /\ rested u1 /\
          inc_get u2 = option_map hctx (inc_get u1) /\ Permutation (wl_of s1) (clast (inc_get u1) ++ wl_of u1)
      | Descend t u1 => exists u2, r' = Descend (broot t) u2 /\ Sim u1 u2 /\ opens (ic_status u1) /\ bpart (broot t) t /\
          hold (S m) (iclaims t ++ cl_of u1) /\ wl_of s1 = wl_of u1
      end.
  Proof.
    induction F as [|F IH]; intros [r1 p1 a1 ch1 c1 st] [r2 p2 a2 ch2 c2 st2] r (HQ & Hp & Ha & Hst & Hc & Hlen & Hop) Hh; [discriminate|];
      unfold cl_of, wl_of in *; cbn [ic_right ic_path ic_anc ic_children ic_conts ic_status] in *; subst st2 p2 a2 c2.
    cbn [loop]; unfold inc_find_body at 1 3; cbn [ic_right ic_path ic_anc ic_children ic_conts ic_status].
    destruct st as [|s st].
    - destruct a1 as [|n a1]; [|destruct HQ]; destruct HQ as [-> ->]; intros [= <-]; eexists; split; [reflexivity|].
      eexists; split; [reflexivity|]; split; [repeat split; auto; constructor|]; split; [apply hold_nil|]; split; [exact I|]; split; [reflexivity|].
      apply Permutation_refl.
    - destruct a1 as [|n a1]; [destruct HQ|]; cbn [tl] in *; destruct s; cbn [Q wl cl map] in *.
      + (* WentLeft *)
        destruct r2 as [|o2 r2]; [destruct HQ|]; destruct r1 as [|o1 r1]; [destruct HQ|]; destruct HQ as [-> HQ].
        destruct c1 as [|c c1]; [discriminate|]; injection Hlen as Hlen; cbn [bindR].
        intros [= <-]; eexists; split; [reflexivity|]; eexists; split; [reflexivity|].
        apply hold_cons in Hh as [Hb Hh].
        split; [unfold Sim; cbn [ic_right ic_path ic_anc ic_children ic_conts ic_status Q wl tl map]; repeat split; auto|].
        split; [exact Hh|]; split; [exact I|]; unfold inc_get, wl_of, hctx; cbn [ic_right ic_path ic_anc ic_children ic_conts ic_status wl map option_map c_path c_ancestors c_children].
        rewrite rev_involutive; cbn [hd_error option_map]; split.
        * rewrite map_rev; reflexivity.
        * rewrite clast_last; apply Permutation_refl.
      + (* ReturnedSelf *)
        destruct r2 as [|o2 r2]; [destruct HQ|]; destruct r1 as [|o1 r1]; [destruct HQ|]; destruct HQ as [Hb HQ].
        destruct o1 as [t|].
        * apply bpo_some in Hb as [-> Hb]; cbn [bindR]; intros [= <-]; eexists; split; [reflexivity|]; eexists; split; [reflexivity|].
          split; [unfold Sim; cbn [ic_right ic_path ic_anc ic_children ic_conts ic_status Q wl tl map]; repeat split; auto|].
          split; [constructor; [discriminate|exact Hop]|]; split; [exact Hb|]; split; [exact Hh|reflexivity].
        * apply bpo_none in Hb as ->; cbn [bindR]; intros E.
          apply (IH _ (mkInc r2 p1 (map value (n :: a1)) ch2 (map (nkids gvcb) (wl a1 st)) (WentRight :: st))) in E; [exact E| |exact Hh].
          unfold Sim; cbn [ic_right ic_path ic_anc ic_children ic_conts ic_status Q wl tl map]; repeat split; auto.
      + (* WentRight *)
        cbn [bindR]; intros E; apply (IH _ (mkInc r2 (tl p1) (map value a1) ch2 (map (nkids gvcb) (wl a1 st)) st)) in E; [exact E| |exact Hh].
        unfold Sim; cbn [ic_right ic_path ic_anc ic_children ic_conts ic_status Q wl tl map]; repeat split; auto.
        destruct st; [constructor|inversion Hop; assumption].
  Qed.

  (** Going down to the left: the state on which the loop ends has a node with no left child on top. *)
  Lemma inc_descend_loop F m : forall t s1 s2 u1 log, Sim s1 s2 -> opens (ic_status s1) -> bpart (broot t) t -> hold (S m) (iclaims t ++ cl_of s1) ->
    loop (inc_descend_body btree_gvcb) F (Some t, s1) = Ok u1 ->
    exists new u2, loop (linc_descend_body gvcb) F (Some (broot t), (log, s2)) = Ok (new ++ log, u2) /\ Sim u1 u2 /\ hold (S m) (cl_of u1) /\
      wl_of u1 = new ++ wl_of s1 /\ exists st, ic_status u1 = WentLeft :: st.
  Proof.
    induction F as [|F IH]; intros t [r1 p1 a1 ch1 c1 st] [r2 p2 a2 ch2 c2 st2] u1 log (HQ & Hp & Ha & Hst & Hc & Hlen & Hop) Hop' Hb Hh; [discriminate|];
      unfold cl_of, wl_of in *; cbn [ic_right ic_path ic_anc ic_children ic_conts ic_status] in *; subst st2 p2 a2 c2.
    destruct t as [n l r]; cbn [broot] in *; cbn [loop]; unfold inc_descend_body at 1, linc_descend_body at 1; cbn [btree_gvcb]; rewrite (gv_eq gvcb n); destruct (nkids gvcb n) as [k1 k2] eqn:Ek.
    cbn [ic_right ic_path ic_anc ic_children ic_conts ic_status bindR].
    set (v1 := mkInc (r :: r1) (push_segment st p1) (n :: a1) ch1 ((l, r) :: c1) (WentLeft :: st)).
    set (v2 := mkInc (k2 :: r2) (push_segment st p1) (value n :: map value a1) ch2 ((k1, k2) :: map (nkids gvcb) (wl a1 st)) (WentLeft :: st)).
    assert (HS : Sim v1 v2).
    { unfold Sim, v1, v2; cbn [ic_right ic_path ic_anc ic_children ic_conts ic_status Q wl tl map length]; rewrite Ek.
      repeat split; auto. }
    assert (Hv : hold (S m) (iclaims_opt l ++ cl_of v1)).
    { refine (hold_impl _ _ _ _ Hh); unfold cl_of, v1; cbn [ic_right ic_anc ic_status cl].
      change (iclaims_opt l ++ bpo (kr n) r :: iclaims_opt r ++ cl a1 st r1) with (iclaims_opt l ++ (bpo (kr n) r :: iclaims_opt r) ++ cl a1 st r1).
      rewrite app_assoc; apply Forall2_app; [apply iclaims_left|apply impl_refl]. }
    assert (Hk : l = None -> k1 = None).
    { intros ->; cbn [iclaims app] in Hh; apply hold_cons in Hh as [[H _] _]; rewrite Ek in H; exact (bpo_none _ H). }
    assert (Hl : forall u, l = Some u -> k1 = Some (broot u) /\ bpart (broot u) u).
    { intros u ->; inversion Hb as [|? ? ? H1 H2]; subst; rewrite Ek in H1; apply bpo_some, H1. }
    destruct l as [u|].
    - destruct (Hl u eq_refl) as [-> Hu]; intros E.
      destruct (IH u v1 v2 u1 (n :: log) HS) as (new & u2 & E2 & H1 & H2 & H3 & H4); [constructor; [discriminate|exact Hop']|exact Hu|exact Hv|exact E|].
      exists (new ++ [n]), u2; rewrite <- !app_assoc; cbn [app]; repeat split; try apply H1; auto.
    - rewrite (Hk eq_refl); destruct F as [|F]; [discriminate|]; cbn [loop inc_descend_body linc_descend_body bindR]; intros [= <-].
      exists [n], v2; repeat split; try apply HS; auto; try exact Hv; exists st; reflexivity.
  Qed.

  (** Between calls *)
  Definition Rinc (m : nat) (Y : list (option (tree_context Nd (option (btree Nd) * option (btree Nd))))) (s1 : inc (btree Nd) Nd) (s2 : linc Nd V) : Prop :=
    (Y = [] /\ exists t P, s1 = inc_new t P /\ s2 = linc_new (broot t) P /\ bpart (broot t) t /\ hold m (iclaims t)) \/
    (Sim s1 (snd s2) /\ hold m (cl_of s1) /\ rested s1 /\ Permutation (fst s2) (flat_map clast Y ++ wl_of s1)).

  Lemma Sim_start P ch ch' : Sim (mkInc [] P [] ch [] []) (mkInc [] P [] ch' [] []).
  Proof. unfold Sim; cbn; repeat split; constructor. Qed.

  Lemma inc_follow F m Y s1 s2 x s1' : Rinc (S m) Y s1 s2 -> inc_next btree_gvcb F s1 = Ok (x, s1') ->
    exists s2', linc_next gvcb F s2 = Ok (option_map hctx x, s2') /\ Rinc m (Y ++ [x]) s1' s2'.
  Proof.
    assert (Hdown : forall t v1 v2 log, Sim v1 v2 -> opens (ic_status v1) -> bpart (broot t) t -> hold (S m) (iclaims t ++ cl_of v1) -> Permutation log (flat_map clast Y ++ wl_of v1) ->
      (s' <- (s'' <- loop (inc_descend_body btree_gvcb) F (Some t, v1) ;; st <- set_returned (ic_status s'') ;;
         match ic_conts s'' with [] => Panic | c :: conts => Ok (mkInc (ic_right s'') (ic_path s'') (ic_anc s'') (Some c) conts st) end) ;;
       Ok (inc_get s', s')) = Ok (x, s1') ->
      exists s2', (s' <- ('(log, s'') <- loop (linc_descend_body gvcb) F (Some (broot t), (log, v2)) ;; st <- set_returned (ic_status s'') ;;
         match ic_conts s'' with [] => Panic | c :: conts => Ok (log, mkInc (ic_right s'') (ic_path s'') (ic_anc s'') (Some c) conts st) end) ;;
       Ok (inc_get (snd s'), s')) = Ok (option_map hctx x, s2') /\ Rinc m (Y ++ [x]) s1' s2').
    { intros t v1 v2 log HS Hop Hb Hh HP.
      destruct (loop (inc_descend_body btree_gvcb) F (Some t, v1)) as [u1| | |] eqn:E; try discriminate; cbn [bindR].
      destruct (inc_descend_loop F m t v1 v2 u1 log HS Hop Hb Hh E) as (new & u2 & -> & HS' & Hh' & Hw & st & Hst); cbn [bindR].
      destruct u1 as [r1 p1 a1 ch1 c1 st1], u2 as [r2 p2 a2 ch2 c2 st2]; unfold Sim, cl_of, wl_of in *; cbn [ic_right ic_path ic_anc ic_children ic_conts ic_status] in *; subst st1.
      destruct HS' as (HQ & -> & -> & -> & -> & Hlen & Hop'); cbn [tl set_returned bindR] in *.
      destruct a1 as [|n a1]; [destruct HQ|]; cbn [Q wl cl] in *.
      destruct r2 as [|o2 r2]; [destruct HQ|]; destruct r1 as [|o1 r1]; [destruct HQ|]; destruct HQ as [-> HQ].
      destruct c1 as [|c c1]; [discriminate|]; injection Hlen as Hlen; cbn [bindR map]; intros [= <- <-].
      apply hold_cons in Hh' as [Hk Hh'].
      eexists; split; [unfold inc_get; cbn [snd ic_anc ic_path ic_children option_map]; unfold hctx; cbn [c_path c_ancestors c_children];
        rewrite rev_involutive; cbn [hd_error option_map map]; rewrite map_rev; reflexivity|].
      right; cbn [snd fst]; split; [unfold Sim; cbn [ic_right ic_path ic_anc ic_children ic_conts ic_status Q wl tl map]; repeat split; auto|].
      split; [exact Hh'|]; split; [exact I|].
      unfold wl_of; cbn [ic_anc ic_status wl]; rewrite flat_map_app; cbn [flat_map]; unfold inc_get; cbn [ic_anc]; rewrite app_nil_r, clast_last, <- app_assoc; cbn [app].
      rewrite HP, Permutation_app_swap_app; apply Permutation_app_head; rewrite <- Hw; apply Permutation_refl. }
    intros [(-> & t & P & -> & -> & Hb & Hh)|(HS & Hh & Hr & HP)]; unfold inc_next, linc_next, inc_advance, linc_advance.
    - destruct F as [|F]; [discriminate|].
      change (loop inc_find_body (S F) (inc_new t P)) with (Ok (Descend t (mkInc [] (rev P) [] None [] [])) : Res (found (inc (btree Nd) Nd))).
      cbn [linc_new]; change (loop inc_find_body (S F) (inc_new (broot t) P)) with (Ok (Descend (broot t) (mkInc [] (rev P) [] None [] [])) : Res (found (inc Nd V))).
      cbn [bindR]; apply Hdown; [apply Sim_start|constructor|exact Hb| |constructor].
      unfold cl_of; cbn; rewrite app_nil_r; exact Hh.
    - destruct s2 as [log s2]; cbn [fst snd] in *.
      destruct (loop inc_find_body F s1) as [r| | |] eqn:E; try discriminate; cbn [bindR].
      destruct (inc_find_loop F m s1 s2 r HS Hh E) as (r' & -> & Hf); cbn [bindR]; destruct r as [u1|t u1].
      + destruct Hf as (u2 & -> & HS' & Hh' & Hr' & Hg & Hw); cbn [bindR]; intros [= <- <-]; exists (log, u2); cbn [snd]; rewrite Hg; split; [reflexivity|].
        right; cbn [snd fst]; split; [exact HS'|]; split; [exact Hh'|]; split; [exact Hr'|].
        rewrite HP, flat_map_app; cbn [flat_map]; rewrite app_nil_r, <- app_assoc; apply Permutation_app_head, Hw.
      + destruct Hf as (u2 & -> & HS' & Hop & Hb & Hh' & Hw); rewrite Hw in HP.
        exact (Hdown t u1 u2 log HS' Hop Hb Hh' HP).
  Qed.

  Lemma in_lab_at (t : btree Nd) i : map (pos_map (nval btree_gvcb)) (inorder (bannotate [i] [] (bsubtrees t))) = map (in_tree i) (inorder (bpositions t)).
  Proof.
    rewrite <- !inorder_map; pose proof (bannotate_map (nval btree_gvcb) (bsubtrees t) [i] []) as E; cbn [map] in E; rewrite <- E.
    rewrite (btree_map_ext _ broot) by apply nval_btree; rewrite bsubtrees_root; f_equal; apply bannotate_prefix.
  Qed.
  Lemma inc_at_calls t k i : bpart (broot t) t -> hold k (iclaims t) ->
    exists s, calls (linc_next gvcb) k (linc_new (broot t) [N.of_nat i]) ⇓ Ok (map (nth_error (map (fun p => context_at gvcb (in_tree i p)) (inorder (bpositions t)))) (seq 0 k), s).
  Proof.
    intros Hb Hh; destruct (inc_yields btree_gvcb bsubtrees [i] node_btree_btree t k) as (s1 & Hc); cbn [map] in Hc.
    destruct (follow _ _ _ (fun F => F) _ inc_follow (more_linc gvcb) k (inc_new t [N.of_nat i]) (linc_new (broot t) [N.of_nat i]) _ _ (or_introl (conj eq_refl (ex_intro _ t (ex_intro _ _ (conj eq_refl (conj eq_refl (conj Hb Hh))))))) Hc) as (s2 & Hc2 & HR).
    rewrite (outs_ctx gvcb btree_gvcb k _ _ (in_lab_at t i)), map_map in Hc2; exists s2; exact Hc2.
  Qed.
  Lemma inc_at n k d i : Forall (fun p => length (pos_path p) < d) (firstn k (inorder (bpositions (bcut gvcb d n)))) ->
    gives (linc_next gvcb) k (linc_new n [N.of_nat i]) (map (fun p => context_at gvcb (in_tree i p)) (inorder (bpositions (bcut gvcb d n)))).
  Proof.
    intros Hk m Hm; assert (Hd : Forall (fun p => length (pos_path p) < d) (firstn m (inorder (bpositions (bcut gvcb d n))))).
    { rewrite <- (firstn_skipn m (firstn k _)), firstn_firstn, Nat.min_l in Hk by exact Hm; apply Forall_app in Hk; apply Hk. }
    pose proof (in_cut gvcb m d n Hd) as Hh; pose proof (in_cut_part gvcb d n) as Hb.
    destruct (inc_at_calls _ m i Hb Hh) as (s & H); rewrite broot_of_bcut in H; exists s; exact H.
  Qed.
  Lemma inco_at n k d i : Forall (fun p => length (pos_path p) < d) (firstn k (inorder (bpositions (bcut gvcb d n)))) ->
    gives (linco_next gvcb) k (linco_new n [N.of_nat i]) (map (fun p => no_children (context_at gvcb (in_tree i p))) (inorder (bpositions (bcut gvcb d n)))).
  Proof.
    intros Hk m Hm; destruct (inc_at n k d i Hk m Hm) as (s & Hc).
    destruct (follow (linc_next gvcb) (linco_next gvcb) (option_map no_children) (fun F => F) (fun _ _ s1 s2 => s2 = snd_map forget_inc s1)) with (k := m) (s1 := linc_new (V := V) n [N.of_nat i]) (s2 := linco_new (V := V) n [N.of_nat i])
      (xs := map (nth_error (map (fun p => context_at gvcb (in_tree i p)) (inorder (bpositions (bcut gvcb d n))))) (seq 0 m)) (s1' := s) as (s2 & Hc2 & ->).
    - intros F m' Y s1 s2 x s1' -> E; eexists; split; [exact (linco_next_sim gvcb F s1 x s1' E)|reflexivity].
    - apply more_linco.
    - reflexivity.
    - exact Hc.
    - rewrite map_outputs, map_map in Hc2; eauto.
  Qed.
End LazyIn.
