(** * ProofsUnwindMid: [leaves()] of an iterator that has been used, when user code panics before or after. *)
From Coq Require Import Permutation.
From Verif Require Import Prelim PrelimFacts Spec SpecFacts SpecObs ModelNode NodeFacts ModelBfs ModelPre ModelPost ModelIn ModelLeaves ModelUnwind SpecUnwind.
From Verif Require Import Slots ProofsPlain ProofsPre ProofsPost ProofsIn ProofsTree ProofsBfs ProofsMore ProofsLeaves ProofsLeavesMid ProofsUnwind ProofsUnwindIn PipeSpecFacts.

Lemma usim_after {S1 S2 A B} (next1 : nat -> S1 -> Res (option A * S1)) (next2 : nat -> S2 -> Res (option B * S2)) (f : A -> B) (R : S1 -> S2 -> Prop) :
  (forall s1 s2 o s1', R s1 s2 -> (fun fu => next1 fu s1) ⇓ Ok (o, s1') ->
     exists s2', (fun fu => next2 fu s2) ⇓ Ok (option_map f o, s2') /\ R s1' s2') ->
  forall k s1 s2 l s2', R s1 s2 -> yields next1 s1 l -> after next2 k s2 s2' ->
  exists s1', after next1 k s1 s1' /\ R s1' s2'.
Proof.
  intros Hsim; induction k as [|k IH]; intros s1 s2 l s2' HR Hy Ha.
  - rewrite <- (after_fun _ _ _ _ _ (after_0 _ _) Ha); exists s1; split; [apply after_0|exact HR].
  - destruct (yields_step_inv _ _ _ Hy) as (s1' & Hn & Hy').
    destruct (Hsim _ _ _ _ HR Hn) as (s2a & Hn2 & HR').
    destruct Ha as [os Hc].
    destruct (calls_S_inv _ _ _ _ _ Hc) as (o & s2b & os' & Hn2' & Hc' & _); [eauto|].
    pose proof (conv_fun _ _ _ Hn2 Hn2') as E; injection E as <- <-.
    destruct (IH _ _ _ s2' HR' Hy' ltac:(eexists; exact Hc')) as (s1z & [os1 H1] & HRz).
    exists s1z; split; [eexists; eapply calls_S; eassumption|exact HRz].
Qed.

Lemma after_P {S A} (next : nat -> S -> Res (option A * S)) (P : S -> Prop) :
  (forall f s o s', next f s = Ok (o, s') -> P s') -> forall k s l s', yields next s l -> after next (Datatypes.S k) s s' -> P s'.
Proof.
  intros H; induction k as [|k IH]; intros s l s' Hy [os Hc];
    destruct (yields_step_inv _ _ _ Hy) as (s1 & Hn & Hy');
    (destruct (calls_S_inv _ _ _ _ _ Hc) as (o & s1' & os' & Hn' & Hc' & _); [eauto|]);
    pose proof (conv_fun _ _ _ Hn Hn') as E; injection E as <- <-.
  - assert (Ha : after next 0 s1 s') by (eexists; exact Hc').
    rewrite <- (after_fun _ _ _ _ _ (after_0 next s1) Ha).
    destruct Hn as [F HF]; exact (H F _ _ _ (HF F (le_n F))).
  - apply (IH s1 _ s' Hy'); eexists; exact Hc'.
Qed.

(** ** The leaves iterator from any state without a root *)
Section UDl.
  Context {Nd V : Type} (gvc : Nd -> option (V * list Nd)) (nt : Nd -> tree Nd).
  Hypothesis Hnt : fnode_tree gvc nt.

  Definition uleaves (n : Nd) : list (outcome V) := map (seen gvc) (filter (leaf_or_panic gvc) (preorder (nt n))).
  Lemma uleaves_eq n : uleaves n =
    match gvc n with
    | None => [Unwound]
    | Some (v, []) => [Got v]
    | Some (_, kids) => flat_map uleaves kids
    end.
  Proof.
    unfold uleaves at 1; rewrite (Hnt n); cbn [preorder filter]; unfold leaf_or_panic at 1.
    destruct (gvc n) as [[v [|c cs]]|] eqn:E; cbn [map flat_map]; unfold seen; try rewrite E; try reflexivity.
    fold (seen gvc).
    change (preorder (nt c) ++ flat_map preorder (map nt cs)) with (flat_map preorder (map nt (c :: cs))).
    rewrite flat_map_map, ProofsLeavesMid.filter_flat_map, map_flat_map; reflexivity.
  Qed.
  Lemma uleaves_ne n : exists v l, uleaves n = v :: l.
  Proof.
    revert n; refine (node_ind (tot gvc) nt (node_tot gvc nt Hnt) _ _); intros n IH; rewrite uleaves_eq.
    unfold nkids, tot in IH; destruct (gvc n) as [[v [|c cs]]|]; eauto.
    cbn [snd] in IH; inversion IH as [|? ? (x & l & E) _]; subst; cbn [flat_map]; rewrite E; cbn; eauto.
  Qed.
  (** What is left of a node that is taken from the stack of the iterator that was used. *)
  Definition uskip (n : Nd) : list (outcome V) :=
    match gvc n with
    | None => [Unwound]
    | Some (_, []) => []
    | Some _ => uleaves n
    end.
  Definition uoutT (T : list (list Nd)) : list (outcome V) := flat_map uleaves (concat T).
  Definition uoutB (B : list (list Nd)) : list (outcome V) := flat_map uskip (concat B).

  Lemma udl_descend : forall n v kids, gvc n = Some (v, kids) -> forall B T I,
    exists T' I', (fun f => loop (udleaves_body gvc) f (true, mkDl None B (kids :: T) (v :: I))) ⇓ Ok (hd_error (uleaves n), mkDl None B T' I') /\
      uoutT T' = tl (uleaves n) ++ uoutT T.
  Proof.
    refine (node_ind (tot gvc) nt (node_tot gvc nt Hnt) _ _); intros n IH v kids En B T I; rewrite uleaves_eq, En.
    destruct kids as [|c cs].
    - exists T, I; split; [apply loop_done; now_conv|reflexivity].
    - unfold nkids, tot in IH; rewrite En in IH; cbn [snd] in IH; inversion IH as [|? ? Hc _]; subst.
      cbn [flat_map]; destruct (gvc c) as [[w kc]|] eqn:Ec.
      + destruct (Hc w kc eq_refl B (cs :: T) (v :: I)) as (T' & I' & Hl & E).
        destruct (uleaves_ne c) as (x & l & Ex); rewrite Ex in *; cbn [hd_error tl app] in *.
        exists T', I'; split.
        * eapply loop_step; [apply conv_eq; intros f; cbn; rewrite Ec; reflexivity|exact Hl].
        * rewrite E; unfold uoutT; cbn [concat]; rewrite flat_map_app, app_assoc; reflexivity.
      + exists (cs :: T), (v :: I); rewrite (uleaves_eq c), Ec; cbn [hd_error tl app]; split.
        * apply loop_done, conv_eq; intros f; cbn; rewrite Ec; reflexivity.
        * unfold uoutT; cbn [concat]; rewrite flat_map_app; reflexivity.
  Qed.

  Lemma udl_top_loop T : forall B I,
    (uoutT T = [] /\ exists I', forall r, (fun f => loop (udleaves_body gvc) f (false, mkDl None B [] I')) ⇓ r ->
                               (fun f => loop (udleaves_body gvc) f (false, mkDl None B T I)) ⇓ r) \/
    exists v l T' I', uoutT T = v :: l /\ uoutT T' = l /\
      (fun f => loop (udleaves_body gvc) f (false, mkDl None B T I)) ⇓ Ok (Some v, mkDl None B T' I').
  Proof.
    induction T as [|[|n top] rest IH]; intros B I.
    - left; split; [reflexivity|exists I; auto].
    - destruct (IH B (tl I)) as [[E (I' & H)]|(v & l & T' & I' & E & E' & H)].
      + left; split; [exact E|]; exists I'; intros r Hr; eapply loop_step; [now_conv|apply H, Hr].
      + right; exists v, l, T', I'; split; [exact E|split; [exact E'|]]; eapply loop_step; [now_conv|exact H].
    - right; destruct (gvc n) as [[v kids]|] eqn:En.
      + destruct (udl_descend n v kids En B (top :: rest) I) as (T' & I' & Hl & E).
        destruct (uleaves_ne n) as (x & l & Ex); rewrite Ex in *; cbn [hd_error tl] in *.
        exists x, (l ++ uoutT (top :: rest)), T', I'; split; [|split; [exact E|]].
        * unfold uoutT; cbn; rewrite Ex; reflexivity.
        * eapply loop_step; [apply conv_eq; intros f; cbn; rewrite En; reflexivity|exact Hl].
      + exists Unwound, (uoutT (top :: rest)), (top :: rest), I; split; [|split; [reflexivity|]].
        * unfold uoutT; cbn; rewrite (uleaves_eq n), En; reflexivity.
        * apply loop_done, conv_eq; intros f; cbn; rewrite En; reflexivity.
  Qed.

  Lemma udl_bottom_loop k : forall B I, length B + length (concat B) <= k ->
    (uoutB B = [] /\ exists I', (fun f => loop (udleaves_body gvc) f (false, mkDl None B [] I)) ⇓ Ok (None, mkDl None [] [] I')) \/
    exists v l B' T' I', uoutB B = v :: l /\ uoutT T' ++ uoutB B' = l /\
      (fun f => loop (udleaves_body gvc) f (false, mkDl None B [] I)) ⇓ Ok (Some v, mkDl None B' T' I').
  Proof.
    induction k as [|k IH]; intros B I Hk; destruct B as [|[|n top] rest]; cbn in Hk; try lia.
    - left; split; [reflexivity|exists I; apply loop_done; now_conv].
    - left; split; [reflexivity|exists I; apply loop_done; now_conv].
    - destruct (IH rest I ltac:(lia)) as [[E (I' & H)]|(v & l & B' & T' & I' & E & E' & H)].
      + left; split; [exact E|]; exists I'; eapply loop_step; [now_conv|exact H].
      + right; exists v, l, B', T', I'; split; [exact E|split; [exact E'|]]; eapply loop_step; [now_conv|exact H].
    - destruct (gvc n) as [[v kids]|] eqn:En.
      + assert (Hstep : (fun f => udleaves_body gvc f (false, mkDl None ((n :: top) :: rest) [] I)) ⇓
                        Ok (inl (false, mkDl None (top :: rest) [kids] (v :: I)))).
        { apply conv_eq; intros f; cbn; rewrite En; reflexivity. }
        assert (HO : uoutB ((n :: top) :: rest) = uoutT [kids] ++ uoutB (top :: rest)).
        { unfold uoutB, uoutT; cbn [concat flat_map app]; f_equal; rewrite app_nil_r.
          unfold uskip; rewrite (uleaves_eq n), En; destruct kids; reflexivity. }
        destruct (udl_top_loop [kids] (top :: rest) (v :: I)) as [[E (I1 & H)]|(x & l & T' & I' & E & E' & H)].
        * rewrite HO, E; cbn [app].
          destruct (IH (top :: rest) I1) as [[E1 (I' & H')]|(x & l & B' & T' & I' & E1 & E1' & H')]; [cbn; lia| |].
          -- left; split; [exact E1|exists I'; eapply loop_step; [exact Hstep|apply H, H']].
          -- right; exists x, l, B', T', I'; split; [exact E1|split; [exact E1'|]].
             eapply loop_step; [exact Hstep|apply H, H'].
        * right; exists x, (l ++ uoutB (top :: rest)), (top :: rest), T', I'; split; [|split].
          -- rewrite HO, E; reflexivity.
          -- rewrite E'; reflexivity.
          -- eapply loop_step; [exact Hstep|exact H].
      + right; exists Unwound, (uoutB (top :: rest)), (top :: rest), [], I; split; [|split; [reflexivity|]].
        * unfold uoutB; cbn; unfold uskip at 1; rewrite En; reflexivity.
        * apply loop_done, conv_eq; intros f; cbn; rewrite En; reflexivity.
  Qed.

  Lemma udl_yields_mid B I : yields (udleaves_next gvc) (mkDl None B [] I) (flat_map uskip (concat B)).
  Proof.
    apply (step_inv_yields _ (fun s l => dl_root s = None /\ l = uoutT (dl_top s) ++ uoutB (dl_bottom s))); [|split; reflexivity].
    clear B I; intros [r B T I] l [Hr ->]; cbn [dl_root dl_top dl_bottom] in *; subst r.
    unfold udleaves_next; cbn [dl_root].
    destruct (udl_top_loop T B I) as [[E (I1 & H)]|(v & l & T' & I' & E & E' & H)]; rewrite E; cbn [app hd_error tl].
    - destruct (udl_bottom_loop _ B I1 (le_n _)) as [[E1 (I' & H')]|(v & l & B' & T' & I' & E1 & E1' & H')]; rewrite E1.
      + eexists; split; [apply H, H'|split; reflexivity].
      + eexists; split; [apply H, H'|]; cbn; auto.
    - eexists; split; [exact H|]; cbn [dl_root dl_top dl_bottom]; rewrite E'; split; reflexivity.
  Qed.
End UDl.

(** ** From the state of the used iterator to the tree *)
Section UPos.
  Context {Nd V C : Type} (gv : Nd -> option V * C) (into_iter : C -> list (option Nd)).
  Local Notation slots := (fun n => into_iter (nkids gv n)).
  Context (T : list nat -> list Nd -> Nd -> tree (pos Nd)).
  Hypothesis HT : slot_law slots T.
  Context (gvc : Nd -> option (V * list Nd)) (nt : Nd -> tree Nd) (n0 : Nd).
  Hypothesis Hnt : fnode_tree gvc nt.
  Hypothesis Hg : forall n, tot gvc n = (nval gv n, flat_map opt_list (slots n)).
  Local Notation kids := (pkids gv into_iter).
  Local Notation tq := (ptree T).
  Local Notation sub := (ProofsLeavesMid.sub (ptree T)).
  Local Notation leafb := (ProofsLeavesMid.leafb (pkids gv into_iter)).
  Let r : pos Nd := mkPos [] [] n0.
  Local Notation Hq := (ProofsLeavesMid.Hq gv into_iter T HT).
  Local Notation stop p := (panics gvc (pos_here p)).

  Lemma here_tree : forall q, tree_map pos_here (tq q) = nt (pos_here q).
  Proof.
    refine (node_ind (gI kids) tq Hq _ _); intros q IH; change (nkids (gI kids) q) with (kids q) in IH.
    rewrite (Hq q), (node_tot gvc nt Hnt (pos_here q)), Hg; cbn [tree_map gI snd fst]; f_equal.
    rewrite map_map.
    replace (flat_map opt_list (slots (pos_here q))) with (map pos_here (kids q)) by (unfold pkids, pbelow; rewrite here_pk; reflexivity).
    rewrite map_map; apply map_ext_Forall; exact IH.
  Qed.

  Lemma leafb_here q : leafb q = leaf_or_panic gvc (pos_here q).
  Proof.
    rewrite (leafb_leaf gv into_iter (tot gvc) Hg); unfold is_leaf, nkids, tot, leaf_or_panic.
    destruct (gvc (pos_here q)) as [[v [|c cs]]|]; reflexivity.
  Qed.

  Lemma mid_main_u (ys ns B : list (pos Nd)) :
    Permutation (ys ++ ns) (sub r) ->
    filter leafb ns = flat_map (fun b => filter leafb (sub b)) B ->
    (forall b, In b B -> exists m q, In b (kids m) /\ In q ys /\ In q (sub m)) ->
    (forall b x, In b B -> In x (sub b) -> In x ns) ->
    filter (fun p => stop p || leaf_or_panic gvc (pos_here p) && negb (parent_entered ys p)) ns =
    flat_map (fun b => if leafb b then (if stop b then [b] else []) else filter leafb (sub b)) B.
  Proof.
    intros Hp H1 H2 H3.
    pose proof (entered_top gv into_iter T HT ys B H2) as Hin.
    pose proof (not_entered gv into_iter T HT r ys ns B Hp H3) as Hout.
    assert (E : filter (fun p => stop p || leaf_or_panic gvc (pos_here p) && negb (parent_entered ys p)) ns =
                filter (fun p => stop p || negb (parent_entered ys p)) (filter leafb ns)).
    { clear - Hg; induction ns as [|x l IH]; [reflexivity|]; cbn; rewrite leafb_here, IH.
      unfold panics, leaf_or_panic; destruct (gvc (pos_here x)) as [[v [|c cs]]|] eqn:Ex; cbn [orb andb filter];
        unfold panics; rewrite ?Ex; reflexivity. }
    rewrite E, H1, filter_flat_map; apply flat_map_ext_Forall, Forall_forall.
    intros b Hb; rewrite !(sub_unfold kids tq Hq b); cbn [filter].
    assert (Es : filter (fun p => stop p || negb (parent_entered ys p)) (filter leafb (flat_map sub (kids b))) = filter leafb (flat_map sub (kids b))).
    { specialize (Hout b); revert Hout; generalize (flat_map sub (kids b)) as l; induction l as [|x l IH]; intros Hn; [reflexivity|].
      cbn [filter]; destruct (leafb x); cbn [filter].
      - rewrite (Hn x Hb (or_introl eq_refl)), orb_true_r; f_equal; apply IH; intros y Hy Hi; apply Hn; [exact Hy|right; exact Hi].
      - apply IH; intros y Hy Hi; apply Hn; [exact Hy|right; exact Hi]. }
    destruct (leafb b) eqn:El; cbn [filter].
    - rewrite (leafb_strict kids tq b El), (Hin b Hb); cbn; rewrite orb_false_r; destruct (stop b); reflexivity.
    - exact Es.
  Qed.

  Definition uspec_mid (L : list (pos Nd)) (k : nat) : list (outcome V) :=
    map (fun p => seen gvc (pos_here p))
      (filter (fun p => stop p || leaf_or_panic gvc (pos_here p) && negb (parent_entered (firstn k L) p)) (skipn k L)).

  Lemma udl_mid L k s B2 I2 : Permutation L (sub r) -> mid_state gv into_iter T L k s -> concat B2 = concat (dl_bottom s) ->
    yields (udleaves_next gvc) (mkDl None B2 [] I2) (uspec_mid L k).
  Proof.
    intros HL (B & I' & -> & E1 & (x & Hx & HU) & E3) E2; cbn [dl_bottom] in E2.
    unfold uspec_mid; rewrite (mid_main_u _ _ (concat B)); [|rewrite firstn_skipn; exact HL|exact E1| |exact E3].
    - pose proof (udl_yields_mid gvc nt Hnt B2 I2) as H; rewrite E2, <- concat_map, flat_map_map in H.
      rewrite map_flat_map.
      erewrite flat_map_ext; [exact H|]; clear - HT Hnt Hg; intros b; unfold uskip.
      rewrite leafb_here; unfold leaf_or_panic, panics.
      destruct (gvc (pos_here b)) as [[v [|c cs]]|] eqn:Eb; cbn [map]; unfold seen; rewrite ?Eb; try reflexivity.
      unfold uleaves, ProofsLeavesMid.sub; rewrite <- here_tree, preorder_map, filter_map, map_map.
      f_equal; apply filter_ext; intros y; apply leafb_here.
    - intros b Hb; destruct (under_parent kids tq Hq B x b HU Hb) as (m & Hm & Hs); exists m, x; auto.
  Qed.

  Lemma uspec_0 L : uspec_mid L 0 = map (seen gvc) (filter (leaf_or_panic gvc) (map pos_here L)).
  Proof.
    unfold uspec_mid; cbn [firstn skipn]; rewrite filter_map, map_map; f_equal; apply filter_ext; intros p; cbn [parent_entered existsb negb].
    unfold panics, leaf_or_panic; destruct (gvc (pos_here p)) as [[v [|c cs]]|]; reflexivity.
  Qed.

  Let Ht : node_tree (tot gvc) nt := node_tot gvc nt Hnt.

  Lemma udl_fresh : yields (udleaves_next gvc) (mkDl (Some n0) [] [] []) (map (seen gvc) (filter (leaf_or_panic gvc) (preorder (nt n0)))).
  Proof.
    assert (E : forall l, map (seen gvc) (filter (leaf_or_panic gvc) l) = map got (map (nval (tot gvc)) (filter (is_leaf (tot gvc)) l))).
    { intros l; rewrite map_map, (map_ext _ _ (seen_tot gvc)); f_equal; apply filter_ext; intros m.
      unfold leaf_or_panic, is_leaf, nkids, tot; destruct (gvc m) as [[v [|c cs]]|]; reflexivity. }
    rewrite E; apply (usim_yields _ _ got udl_R (udl_sim gvc) (pre_leaves (pre_new n0))); [split; reflexivity|].
    exact (dleaves_yields_fresh _ nt Ht n0 []).
  Qed.

  Lemma udl_fresh_any L : filter (leaf_or_panic gvc) (map pos_here L) = filter (leaf_or_panic gvc) (preorder (nt n0)) ->
    yields (udleaves_next gvc) (mkDl (Some n0) [] [] []) (uspec_mid L 0).
  Proof. intros E; rewrite uspec_0, E; apply udl_fresh. Qed.

  Lemma upre_mid k s : after (upre_next gvc) k (pre_new n0) s ->
    yields (udleaves_next gvc) (pre_leaves s) (uspec_mid (preorder (T [] [] n0)) k).
  Proof.
    intros Ha; destruct (usim_after _ _ got upre_R (upre_sim gvc) k (pre_new n0) (pre_new n0) _ s ltac:(left; reflexivity) (pre_yields _ nt Ht n0) Ha)
      as (s1 & H1 & HR).
    destruct k as [|k].
    - rewrite <- (after_fun _ _ _ _ _ (after_0 _ _) Ha); apply udl_fresh_any.
      rewrite <- preorder_map; change (T [] [] n0) with (tq r); rewrite here_tree; reflexivity.
    - pose proof (pre_mid gv into_iter T HT (tot gvc) n0 Hg k s1 H1) as Hm.
      assert (Er : pre_root s = None /\ concat (pre_stack s) = concat (pre_stack s1)).
      { destruct Hm as (B & I' & E & _); unfold pre_leaves in E; injection E as Er _ _.
        destruct HR as [<-|(_ & Er2 & Es)]; [split; [exact Er|reflexivity]|split; [exact Er2|rewrite Es; reflexivity]]. }
      destruct Er as [Er Ec]; unfold pre_leaves at 1; rewrite Er.
      refine (udl_mid _ (S k) _ (pre_stack s) [] _ Hm Ec); reflexivity.
  Qed.

  Lemma post_pre_leaves : forall m, filter (leaf_or_panic gvc) (postorder (nt m)) = filter (leaf_or_panic gvc) (preorder (nt m)).
  Proof.
    refine (node_ind (tot gvc) nt Ht _ _); intros m IH; rewrite (Hnt m); unfold nkids, tot in IH; cbn [postorder preorder].
    destruct (gvc m) as [[v [|c cs]]|] eqn:Em; [reflexivity| |reflexivity]; cbn [snd] in IH.
    rewrite filter_app; cbn [filter]; unfold leaf_or_panic at 2 3; rewrite Em, app_nil_r.
    rewrite !flat_map_map, !ProofsLeavesMid.filter_flat_map; apply flat_map_ext_Forall; exact IH.
  Qed.

  Lemma upost_mid k s : after (upost_next gvc) k (post_new n0) s ->
    yields (udleaves_next gvc) (post_leaves s) (uspec_mid (postorder (T [] [] n0)) k).
  Proof.
    intros Ha; destruct (usim_after _ _ got upost_R (upost_sim gvc) k (post_new n0) (post_new n0) _ s eq_refl (post_yields _ nt Ht n0) Ha)
      as (s1 & H1 & HR).
    destruct k as [|k].
    - rewrite <- (after_fun _ _ _ _ _ (after_0 _ _) Ha); apply udl_fresh_any.
      rewrite <- postorder_map; change (T [] [] n0) with (tq r); rewrite here_tree; apply post_pre_leaves.
    - pose proof (post_mid gv into_iter T HT (tot gvc) n0 Hg k s1 H1) as Hm.
      unfold upost_R in HR; subst s1.
      assert (Er : po_root s = None) by (destruct Hm as (B & I' & E & _); unfold post_leaves in E; injection E as Er _ _; exact Er).
      unfold post_leaves at 1; rewrite Er.
      refine (udl_mid _ (S k) _ (po_stack s) [] _ Hm eq_refl).
      apply postorder_perm.
  Qed.

  Lemma ubfs_next_root f s o s' : ubfs_next gvc f s = Ok (o, s') -> bfs_root s' = None.
  Proof.
    unfold ubfs_next; destruct (bfs_root s) as [m|].
    - destruct (gvc m) as [[v c]|]; intros E; injection E as <- <-; reflexivity.
    - intros E; refine (loop_pres (ubfs_body gvc) (fun _ => True) (fun x => bfs_root (snd x) = None) _ f (bfs_queue s) (o, s') I E).
      intros g [|[|m l] q] x _ Ex; cbn in Ex; try (destruct (gvc m) as [[v c]|]); injection Ex as <-; try exact I; reflexivity.
  Qed.

  Lemma ubfs_mid k s : after (ubfs_next gvc) k (bfs_new n0) s ->
    yields (ubleaves_next gvc) (bfs_leaves s) (map (seen gvc) (filter (leaf_or_panic gvc) (skipn k (bfs (nt n0))))).
  Proof.
    intros Ha; destruct (usim_after _ _ got ubfs_R (ubfs_sim gvc) k (bfs_new n0) (bfs_new n0) _ s (conj eq_refl eq_refl) (bfs_yields _ nt Ht n0) Ha)
      as (s1 & H1 & Er & Es).
    assert (Hq2 : bfs_root s = None \/ bfs_queue s = []).
    { destruct k as [|k]; [right; rewrite <- (after_fun _ _ _ _ _ (after_0 _ _) Ha); reflexivity|left].
      exact (after_P _ (fun s => bfs_root s = None) ubfs_next_root k _ _ s (ubfs_yields gvc nt Hnt n0 (bfs_yields _ nt Ht n0)) Ha). }
    destruct (bfs_after (tot gvc) nt Ht n0 k s1 H1) as (ns & <- & H).
    assert (Ec : forall q : list (list Nd), concat (strip q) = concat q).
    { induction q as [|[|x l] q IH]; [reflexivity|exact IH|].
      change (strip ((x :: l) :: q)) with ((x :: l) :: strip q); cbn [concat]; rewrite IH; reflexivity. }
    assert (Eq : concat (bfs_queue s) = concat (bfs_queue s1)) by (rewrite <- (Ec (bfs_queue s)), <- Es; apply Ec).
    assert (E : map (seen gvc) (filter (leaf_or_panic gvc) ns) = map got (map (nval (tot gvc)) (filter (is_leaf (tot gvc)) ns))).
    { rewrite map_map, (map_ext _ _ (seen_tot gvc)); f_equal; apply filter_ext; intros m.
      unfold leaf_or_panic, is_leaf, nkids, tot; destruct (gvc m) as [[v [|c cs]]|]; reflexivity. }
    rewrite E; apply (usim_yields _ _ got ubl_R (ubl_sim gvc) (bfs_leaves s)); [repeat split; apply qrel_refl|].
    apply (step_inv_yields _ _ (bl_step _ nt Ht)); exists ns; split; [|reflexivity].
    unfold bl_RN, bfs_leaves; cbn; rewrite <- Er; destruct (bfs_root s1).
    - destruct H as [_ H]; rewrite <- Er in Hq2; destruct Hq2 as [Hq2|Hq2]; [discriminate|]; auto.
    - rewrite app_nil_r, Eq; exact H.
  Qed.
End UPos.

Section UInMid.
  Context {Nd V : Type} (gvcb : Nd -> option (V * (option Nd * option Nd))) (bt : Nd -> btree Nd).
  Hypothesis Hbt : fnode_btree gvcb bt.
  Let Hb : node_btree (btot gvcb) bt := node_btot gvcb bt Hbt.
  Let HT := slot_law_binary (btot gvcb) bt Hb.
  Lemma fnode_binary : fnode_tree (ubinary_gvc gvcb) (fun n => flat (bt n)).
  Proof. intros n; rewrite Hbt; unfold ubinary_gvc; destruct (gvcb n) as [[v [[l|] [r|]]]|]; reflexivity. Qed.
  Lemma Hg_ubinary n : tot (ubinary_gvc gvcb) n = (nval (btot gvcb) n, flat_map opt_list (pair_iter (nkids (btot gvcb) n))).
  Proof. unfold tot, ubinary_gvc, nval, nkids, btot; destruct (gvcb n) as [[v c]|]; reflexivity. Qed.

  Lemma uin_next_moved f s o s' : uin_next gvcb f s = Ok (o, s') -> in_moved s' = true.
  Proof.
    unfold uin_next; destruct (loop in_find_body f (in_right s, in_items s)) as [[[[x items] rights]|[cur rights]]| | |]; cbn [bindR]; try discriminate.
    - intros E; injection E as <- <-; reflexivity.
    - destruct (loop (uin_descend_body gvcb) f _) as [[[r2 i2]|[r2 i2]]| | |]; cbn [bindR]; try discriminate; intros E; injection E as <- <-; reflexivity.
  Qed.

  Lemma in_next_moved f s o s' : in_next (btot gvcb) f s = Ok (o, s') -> in_moved s' = true.
  Proof.
    unfold in_next; destruct (loop in_find_body f (in_right s, in_items s)) as [[[[x items] rights]|[cur rights]]| | |]; cbn [bindR]; try discriminate.
    - intros E; injection E as <- <-; reflexivity.
    - destruct (loop (in_descend_body (btot gvcb)) f _) as [[r2 i2]| | |]; cbn [bindR]; try discriminate; intros E; injection E as <- <-; reflexivity.
  Qed.

  Lemma in_pre_leaves : forall n, filter (leaf_or_panic (ubinary_gvc gvcb)) (inorder (bt n)) = filter (leaf_or_panic (ubinary_gvc gvcb)) (preorder (flat (bt n))).
  Proof.
    refine (bnode_ind (btot gvcb) bt Hb _ _); intros n IHl IHr; unfold nleft, nright, nkids, btot in IHl, IHr.
    rewrite (Hbt n); destruct (gvcb n) as [[v [l r]]|] eqn:E; [|reflexivity].
    cbn [snd fst] in IHl, IHr.
    assert (Hn : leaf_or_panic (ubinary_gvc gvcb) n = match l, r with None, None => true | _, _ => false end).
    { unfold leaf_or_panic, ubinary_gvc; rewrite E; destruct l, r; reflexivity. }
    destruct l as [l|], r as [r|]; cbn [option_map inorder flat opt_list map app preorder flat_map];
      rewrite ?app_nil_r, ?filter_app; cbn [filter]; rewrite Hn, ?app_nil_r, ?filter_app, ?IHl, ?IHr; reflexivity.
  Qed.

  Lemma uin_mid n k s : after (uin_next gvcb) k (in_new n) s ->
    exists s', in_leaves s = Ok s' /\
      yields (udleaves_next (ubinary_gvc gvcb)) s' (uspec_mid (ubinary_gvc gvcb) (inorder (bpositions (bt n))) k).
  Proof.
    intros Ha.
    destruct k as [|k].
    - rewrite <- (after_fun _ _ _ _ _ (after_0 _ _) Ha); eexists; split; [reflexivity|].
      apply (udl_fresh_any (ubinary_gvc gvcb) _ n fnode_binary).
      rewrite <- inorder_map, (bpositions_val (fun x => x)), btree_map_id.
      apply in_pre_leaves.
    - assert (HR0 : uin_R (in_new (V := option V) n) (in_new (V := V) n)) by (split; [reflexivity|left; split; [reflexivity|right; reflexivity]]).
      destruct (usim_after _ _ got uin_R (uin_sim gvcb) (S k) (in_new n) (in_new n) _ s HR0 (in_yields _ bt Hb n) Ha) as (s1 & H1 & HR).
      pose proof (after_P _ (fun s => in_moved s = true) uin_next_moved k _ _ s (usim_yields _ _ got uin_R (uin_sim gvcb) _ _ _ HR0 (in_yields _ bt Hb n)) Ha) as Hmv.
      destruct (in_mid _ bt Hb n k s1 H1) as (s' & Es & Hm).
      pose proof (after_P _ (fun s => in_moved s = true) in_next_moved k _ _ s1 (in_yields _ bt Hb n) H1) as Hmv1; cbn beta in Hmv, Hmv1.
      unfold in_leaves in Es |- *; rewrite Hmv1 in Es; rewrite Hmv; eexists; split; [reflexivity|]; injection Es as <-.
      refine (udl_mid (btot gvcb) pair_iter _ HT (ubinary_gvc gvcb) _ n fnode_binary Hg_ubinary _ (S k) _ _ _ _ Hm _).
      + exact (inorder_perm _).
      + cbn [dl_bottom]; destruct HR as (_ & [(-> & _)|(-> & _)]); reflexivity.
  Qed.
End UInMid.
