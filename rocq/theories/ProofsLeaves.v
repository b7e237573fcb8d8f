(** * Proofs for the [leaves()] iterators. *)
From Verif Require Import Prelim PrelimFacts Spec SpecFacts ModelNode NodeFacts.
From Verif Require Import ModelBfs ModelPre ModelPost ModelIn ModelLeaves ProofsPlain ProofsPre ProofsTree ProofsMore.

(** ** Transfer of states along a simulation *)
Lemma after_sim {S1 S2 O1 O2} (phi : S1 -> S2) (psi : O1 -> O2)
    (n1 : nat -> S1 -> Res (O1 * S1)) (n2 : nat -> S2 -> Res (O2 * S2)) :
  (forall f s o s', n1 f s = Ok (o, s') -> n2 f (phi s) = Ok (psi o, phi s')) ->
  forall k s s', after n1 k s s' -> after n2 k (phi s) (phi s').
Proof.
  intros H k s s' [os [F HF]]; exists (map psi os), F; intros f Hf.
  apply (calls_sim_ok phi psi n1 n2 H), HF, Hf.
Qed.

Lemma after_back {S1 S2 A B} (phi : S1 -> S2) (psi : option A -> B)
    (n1 : nat -> S1 -> Res (option A * S1)) (n2 : nat -> S2 -> Res (B * S2)) :
  (forall f s o s', n1 f s = Ok (o, s') -> n2 f (phi s) = Ok (psi o, phi s')) ->
  forall k s l s2, yields n1 s l -> after n2 k (phi s) s2 -> exists s1, after n1 k s s1 /\ s2 = phi s1.
Proof.
  intros H k s l s2 Hy Ha.
  destruct (yields_after_ex _ k _ _ Hy) as [s1 H1]; exists s1; split; [exact H1|].
  eapply after_fun; [exact Ha|]; eapply after_sim; [exact H|exact H1].
Qed.

(** ** Naturality: the machines do not look inside nodes and values *)
Section Natural.
  Context {N1 N2 V1 V2 : Type} (phi : N1 -> N2) (psi : V1 -> V2).
  Context (g1 : N1 -> V1 * list N1) (g2 : N2 -> V2 * list N2).
  Hypothesis Hg : forall n, g2 (phi n) = (psi (fst (g1 n)), map phi (snd (g1 n))).

  Definition m_bfs (s : bfs_iter N1) : bfs_iter N2 := mkBfs (option_map phi (bfs_root s)) (map (map phi) (bfs_queue s)).
  Definition m_pre (s : pre_iter N1) : pre_iter N2 := mkPre (option_map phi (pre_root s)) (map (map phi) (pre_stack s)).
  Definition m_post (s : post_iter N1 V1) : post_iter N2 V2 :=
    mkPost (option_map phi (po_root s)) (map psi (po_items s)) (map (map phi) (po_stack s)).
  Definition m_dl (s : dleaves N1 V1) : dleaves N2 V2 :=
    mkDl (option_map phi (dl_root s)) (map (map phi) (dl_bottom s)) (map (map phi) (dl_top s)) (map psi (dl_items s)).

  Ltac use_g n := rewrite Hg; destruct (g1 n) as [? ?]; cbn [fst snd] in *.

  Lemma nat_bfs f s o s' : bfs_next g1 f s = Ok (o, s') -> bfs_next g2 f (m_bfs s) = Ok (option_map psi o, m_bfs s').
  Proof.
    destruct s as [[n|] q]; unfold bfs_next, m_bfs; cbn.
    - use_g n; intros E; injection E as <- <-; cbn; rewrite map_app; reflexivity.
    - intros E; refine (loop_sim_ok (map (map phi)) (fun r => (option_map psi (fst r), m_bfs (snd r))) _ _ _ _ _ _ E).
      clear E; intros f0 [|[|n front] rest] x E; cbn in E |- *; [injection E as <-; reflexivity|injection E as <-; reflexivity|].
      use_g n; injection E as <-; cbn; unfold m_bfs; cbn; rewrite map_app; reflexivity.
  Qed.

  Lemma nat_pre f s o s' : pre_next g1 f s = Ok (o, s') -> pre_next g2 f (m_pre s) = Ok (option_map psi o, m_pre s').
  Proof.
    destruct s as [[n|] q]; unfold pre_next, m_pre; cbn.
    - use_g n; intros E; injection E as <- <-; reflexivity.
    - destruct (loop pre_next_body f q) as [[on st]| | |] eqn:El; cbn; try discriminate.
      rewrite (loop_sim_ok (map (map phi)) (fun r => (option_map phi (fst r), map (map phi) (snd r))) pre_next_body pre_next_body
                 (fun f s x => ltac:(destruct s as [|[|? ?] ?]; cbn; intros E; injection E as <-; reflexivity)) _ _ _ El); cbn.
      destruct on as [n|]; cbn; [use_g n|]; intros E; injection E as <- <-; reflexivity.
  Qed.

  Lemma nat_post f s o s' : post_next g1 f s = Ok (o, s') -> post_next g2 f (m_post s) = Ok (option_map psi o, m_post s').
  Proof.
    intros E; refine (loop_sim_ok m_post (fun r => (option_map psi (fst r), m_post (snd r))) _ _ _ _ _ _ E).
    clear E; intros f0 [[n|] items stack] x E; cbn in E |- *.
    - use_g n; injection E as <-; reflexivity.
    - destruct stack as [|[|n top] rest]; cbn in E |- *.
      + injection E as <-; cbn; unfold m_post; destruct items; reflexivity.
      + injection E as <-; cbn; unfold m_post; destruct items; reflexivity.
      + use_g n; injection E as <-; reflexivity.
  Qed.

  Lemma nat_dl f s o s' : dleaves_next g1 f s = Ok (o, s') -> dleaves_next g2 f (m_dl s) = Ok (option_map psi o, m_dl s').
  Proof.
    assert (H : forall f st x, dleaves_body g1 f st = Ok x ->
      dleaves_body g2 f (fst st, m_dl (snd st)) =
      Ok (sum_map (fun st => (fst st, m_dl (snd st))) (fun r => (option_map psi (fst r), m_dl (snd r))) x)).
    { clear f s o s'; intros f [b [r B T I]] x E; cbn in E |- *.
      destruct T as [|[|n top] rest]; cbn.
      - destruct B as [|[|n top] rest]; cbn; try (injection E as <-; reflexivity).
        use_g n; injection E as <-; reflexivity.
      - destruct b; injection E as <-; cbn; unfold m_dl; cbn; destruct I; reflexivity.
      - use_g n; injection E as <-; reflexivity. }
    destruct s as [[n|] B T I]; unfold dleaves_next, m_dl; cbn.
    - use_g n; intros E.
      exact (loop_sim_ok (fun st => (fst st, m_dl (snd st))) _ _ _ H _ _ _ E).
    - intros E; exact (loop_sim_ok (fun st => (fst st, m_dl (snd st))) _ _ _ H _ _ _ E).
  Qed.
End Natural.

Section NaturalIn.
  Context {N1 N2 V1 V2 : Type} (phi : N1 -> N2) (psi : V1 -> V2).
  Context (g1 : N1 -> V1 * (option N1 * option N1)) (g2 : N2 -> V2 * (option N2 * option N2)).
  Hypothesis Hg : forall n, g2 (phi n) =
    (psi (fst (g1 n)), (option_map phi (fst (snd (g1 n))), option_map phi (snd (snd (g1 n))))).
  Definition m_in (s : in_iter N1 V1) : in_iter N2 V2 :=
    mkIn (map (option_map phi) (in_right s)) (map psi (in_items s)) (in_moved s).

  Lemma nat_in f s o s' : in_next g1 f s = Ok (o, s') -> in_next g2 f (m_in s) = Ok (option_map psi o, m_in s').
  Proof.
    destruct s as [rights items b]; unfold in_next, m_in; cbn [in_right in_items].
    set (m1 := fun r : option V1 * list V1 * list (option N1) + option N1 * list (option N1) =>
      match r with inl (v, i, rs) => inl (option_map psi v, map psi i, map (option_map phi) rs)
                 | inr (c, rs) => inr (option_map phi c, map (option_map phi) rs) end).
    destruct (loop in_find_body f (rights, items)) as [x| | |] eqn:E1; cbn [bindR]; try discriminate.
    assert (Hf : loop in_find_body f (map (option_map phi) rights, map psi items) = Ok (m1 x)).
    { refine (loop_sim_ok (fun p => (map (option_map phi) (fst p), map psi (snd p))) m1 _ _ _ _ _ _ E1).
      clear; intros f [rs its] x E; unfold in_find_body in *; cbn [fst snd] in *; rewrite !map_length.
      destruct (length rs =? length its); [injection E as <-; cbn; destruct its; reflexivity|].
      destruct rs as [|[r|] [|r' rs]]; cbn in E |- *; injection E as <-; reflexivity. }
    rewrite Hf; cbn [bindR]; destruct x as [[[v i] rs]|[c rs]]; cbn [m1].
    - intros E; injection E as <- <-; reflexivity.
    - destruct (loop (in_descend_body g1) f (c, rs, items)) as [[r1 i1]| | |] eqn:E2; cbn [bindR]; try discriminate.
      pose proof (loop_sim_ok (fun p => (option_map phi (fst (fst p)), map (option_map phi) (snd (fst p)), map psi (snd p)))
                 (fun r => (map (option_map phi) (fst r), map psi (snd r))) (in_descend_body g1) (in_descend_body g2)
                 (fun f s x => ltac:(destruct s as [[[n|] rs0] its]; cbn;
                    [rewrite Hg; destruct (g1 n) as [? [? ?]]; cbn|]; intros E; injection E as <-; reflexivity)) _ _ _ E2) as H2; cbn [fst snd] in H2; rewrite H2; cbn [bindR].
      intros E; injection E as <- <-; cbn; do 2 f_equal; [destruct i1; reflexivity|unfold m_in; cbn; f_equal; destruct i1; reflexivity].
  Qed.
End NaturalIn.

(** ** Breadth-first leaves *)
Section BLeaves.
  Context {Nd V : Type} (gvc : Nd -> V * list Nd) (nt : Nd -> tree Nd).
  Hypothesis Hnt : node_tree gvc nt.
  Local Notation value := (nval gvc).
  Local Notation kids := (nkids gvc).
  Local Notation leaf := (is_leaf gvc).

  Lemma is_nil_leaf n : is_nil (kids n) = leaf n.
  Proof. unfold is_leaf; destruct (kids n); reflexivity. Qed.

  Definition bl_RN (s : bleaves Nd) (ns : list Nd) : Prop :=
    match bl_root s with
    | Some n => bl_old s = [] /\ bl_new s = [] /\ bfs_rem nt [n] ns
    | None => bfs_rem nt (concat (bl_old s) ++ concat (bl_new s)) ns
    end.

  Definition bl_item (n : Nd) : bool * V := (negb (leaf n), value n).

  Lemma bl_loop_new new : forall ns, bfs_rem nt (concat new) ns ->
    exists s', (fun f => loop (bleaves_bfs_body gvc) f (mkBl None [] new)) ⇓ Ok (option_map bl_item (hd_error ns), s') /\
               bl_RN s' (tl ns).
  Proof.
    induction new as [|front rest IH]; intros ns H.
    - apply bfs_rem_nil in H; subst ns.
      exists (mkBl None [] []); split; [apply loop_done; now_conv|apply bfs_rem_nil'].
    - destruct front as [|n front].
      + destruct (IH ns H) as (s' & Hs & HR).
        exists s'; split; [|exact HR]; eapply loop_step; [now_conv|exact Hs].
      + cbn in H; apply (bfs_rem_step gvc nt Hnt) in H as (ns' & -> & H).
        exists (mkBl None [] ((front :: rest) ++ [kids n])); split.
        * apply loop_done; apply conv_eq; intros f; cbn; rewrite (gv_eq gvc), is_nil_leaf; reflexivity.
        * unfold bl_RN; cbn [bl_root bl_old bl_new]; rewrite concat_app; cbn; rewrite app_nil_r; exact H.
  Qed.

  Lemma bl_loop old : forall new ns, bfs_rem nt (concat old ++ concat new) ns ->
    exists s', (fun f => loop (bleaves_bfs_body gvc) f (mkBl None old new)) ⇓ Ok (option_map bl_item (hd_error ns), s') /\
               bl_RN s' (tl ns).
  Proof.
    induction old as [|front rest IH]; intros new ns H; [apply bl_loop_new; exact H|].
    destruct front as [|n front].
    - destruct (IH new ns H) as (s' & Hs & HR).
      exists s'; split; [|exact HR]; eapply loop_step; [now_conv|exact Hs].
    - cbn in H; apply (bfs_rem_step gvc nt Hnt) in H as (ns' & -> & H).
      exists (mkBl None (front :: rest) (new ++ [kids n])); split.
      + apply loop_done; apply conv_eq; intros f; cbn; rewrite (gv_eq gvc), is_nil_leaf; reflexivity.
      + unfold bl_RN; cbn [bl_root bl_old bl_new]; rewrite concat_app; cbn; rewrite app_nil_r, app_assoc; exact H.
  Qed.

  Lemma bl_bfs_step s ns : bl_RN s ns ->
    exists s', (fun f => bleaves_bfs_next gvc f s) ⇓ Ok (option_map bl_item (hd_error ns), s') /\ bl_RN s' (tl ns).
  Proof.
    destruct s as [[n|] old new]; unfold bl_RN, bleaves_bfs_next; cbn [bl_root bl_old bl_new]; intros H.
    - destruct H as (-> & -> & H); apply (bfs_rem_step gvc nt Hnt) in H as (ns' & -> & H).
      exists (mkBl None [] [kids n]); split.
      + rewrite (gv_eq gvc), is_nil_leaf; now_conv.
      + cbn in *; rewrite app_nil_r; exact H.
    - apply bl_loop; exact H.
  Qed.

  Definition bl_R (s : bleaves Nd) (l : list V) : Prop := exists ns, bl_RN s ns /\ l = map value (filter leaf ns).

  Lemma bl_step : step_inv (bleaves_next gvc) bl_R.
  Proof.
    intros s l (ns & H & ->); unfold bleaves_next.
    revert s H; induction ns as [|n ns IH]; intros s H.
    - destruct (bl_bfs_step s [] H) as (s' & Hs & HR).
      exists s'; split; [|exists []; split; [exact HR|reflexivity]].
      apply loop_done; unfold bleaves_body; eapply conv_bind; [exact Hs|]; now_conv.
    - destruct (bl_bfs_step s (n :: ns) H) as (s' & Hs & HR); cbn in Hs; unfold bl_item in Hs.
      cbn [filter]; destruct (leaf n) eqn:El; cbn [negb] in Hs.
      + exists s'; split; [|exists ns; split; [exact HR|reflexivity]].
        apply loop_done; unfold bleaves_body; eapply conv_bind; [exact Hs|]; now_conv.
      + destruct (IH s' HR) as (s'' & Hs' & HR'); exists s''; split; [|exact HR'].
        eapply loop_step; [|exact Hs']; unfold bleaves_body; eapply conv_bind; [exact Hs|]; now_conv.
  Qed.

  Definition gvI (n : Nd) : Nd * list Nd := (n, kids n).
  Lemma gvI_node : node_tree gvI nt.
  Proof. exact Hnt. Qed.
  Lemma gvI_nat n : gvc (id n) = (value (fst (gvI n)), map id (snd (gvI n))).
  Proof. rewrite map_id; apply (gv_eq gvc). Qed.
  Lemma map_nvI l : map (nval gvI) l = l.
  Proof. apply map_id. Qed.

  (** The state of the breadth-first iterator after [k] calls. *)
  Lemma bfs_after n k s : after (bfs_next gvc) k (bfs_new n) s ->
    exists ns, ns = skipn k (bfs (nt n)) /\
      match bfs_root s with Some m => bfs_queue s = [] /\ bfs_rem nt [m] ns | None => bfs_rem nt (concat (bfs_queue s)) ns end.
  Proof.
    intros Ha.
    destruct (after_back (m_bfs id) _ _ _ (nat_bfs id value gvI gvc gvI_nat) k (bfs_new n) _ s (bfs_yields gvI nt gvI_node n) Ha)
      as (s1 & H1 & ->).
    assert (E : m_bfs id s1 = s1).
    { destruct s1 as [[r|] q]; unfold m_bfs; cbn; f_equal; rewrite <- (map_id q) at 2; apply map_ext; intros; apply map_id. }
    rewrite E; clear E Ha.
    destruct (step_inv_after _ _ (bfs_step gvI nt gvI_node) k (bfs_new n) (bfs (nt n)) s1) as (ns & E & H); auto.
    - exists (bfs (nt n)); split; [rewrite map_nvI; reflexivity|split; [reflexivity|apply (bfs_rem_root gvI nt gvI_node)]].
    - rewrite map_nvI in E; exists ns; split; [auto|exact H].
  Qed.

  Lemma bleaves_yields n k s : after (bfs_next gvc) k (bfs_new n) s ->
    yields (bleaves_next gvc) (bfs_leaves s) (map value (filter leaf (skipn k (bfs (nt n))))).
  Proof.
    intros Ha; destruct (bfs_after n k s Ha) as (ns & <- & H).
    apply (step_inv_yields _ _ bl_step); exists ns; split; [|reflexivity].
    unfold bl_RN, bfs_leaves; cbn; destruct (bfs_root s); [destruct H; auto|rewrite app_nil_r; exact H].
  Qed.
End BLeaves.

(** ** Depth-first leaves *)
Section DLeaves.
  Context {Nd V : Type} (gvc : Nd -> V * list Nd) (nt : Nd -> tree Nd).
  Hypothesis Hnt : node_tree gvc nt.
  Local Notation value := (nval gvc).
  Local Notation kids := (nkids gvc).
  Local Notation leaf := (is_leaf gvc).

  Definition leavesN (n : Nd) : list V := map value (filter leaf (preorder (nt n))).
  Lemma leavesN_unfold n : leavesN n = if leaf n then [value n] else flat_map leavesN (kids n).
  Proof.
    unfold leavesN at 1; rewrite (nt_unfold _ _ Hnt n); cbn [preorder filter].
    assert (E : filter leaf (flat_map preorder (map nt (kids n))) = flat_map (fun n => filter leaf (preorder (nt n))) (kids n)).
    { induction (kids n) as [|c cs IH]; [reflexivity|]; cbn; rewrite filter_app, IH; reflexivity. }
    rewrite E; destruct (leaf n) eqn:El.
    - unfold is_leaf in El; destruct (kids n); [reflexivity|discriminate].
    - rewrite map_flat_map; reflexivity.
  Qed.
  Lemma leavesN_ne n : exists v l, leavesN n = v :: l.
  Proof.
    revert n; refine (node_ind gvc nt Hnt _ _); intros n IH; rewrite leavesN_unfold.
    unfold is_leaf; destruct (kids n) as [|c cs] eqn:Ek; [eauto|].
    inversion IH as [|? ? (v & l & E) _]; subst; cbn; rewrite E; cbn; eauto.
  Qed.
  (** What is left of a node that is taken directly from the stack of the original iterator. *)
  Definition skipN (n : Nd) : list V := if leaf n then [] else leavesN n.

  Definition outT (T : list (list Nd)) : list V := flat_map leavesN (concat T).
  Definition outB (B : list (list Nd)) : list V := flat_map skipN (concat B).

  Lemma dl_descend : forall n B T I,
    exists s' T' I', (fun f => loop (dleaves_body gvc) f (true, mkDl None B (kids n :: T) (value n :: I))) ⇓ Ok (hd_error (leavesN n), s') /\
      s' = mkDl None B T' I' /\ outT T' = tl (leavesN n) ++ outT T.
  Proof.
    refine (node_ind gvc nt Hnt _ _); intros n IH B T I; rewrite leavesN_unfold.
    destruct (kids n) as [|c cs] eqn:Ek; unfold is_leaf; rewrite Ek.
    - exists (mkDl None B T I), T, I; split; [apply loop_done; now_conv|split; reflexivity].
    - inversion IH as [|? ? Hc _]; subst.
      destruct (Hc B (cs :: T) (value n :: I)) as (s' & T' & I' & Hl & -> & E).
      exists (mkDl None B T' I'), T', I'; split; [|split; [reflexivity|]].
      + eapply loop_step; [apply conv_eq; intros f; cbn; rewrite (gv_eq gvc); reflexivity|].
        destruct (leavesN_ne c) as (v & l & Ec); cbn [flat_map]; rewrite Ec in *; exact Hl.
      + rewrite E; destruct (leavesN_ne c) as (v & l & Ec); cbn [flat_map]; rewrite Ec; cbn.
        unfold outT; cbn; rewrite flat_map_app, app_assoc; reflexivity.
  Qed.

  Lemma dl_top_loop T : forall B I,
    (outT T = [] /\ exists I', forall r, (fun f => loop (dleaves_body gvc) f (false, mkDl None B [] I')) ⇓ r ->
                               (fun f => loop (dleaves_body gvc) f (false, mkDl None B T I)) ⇓ r) \/
    exists v l T' I', outT T = v :: l /\ outT T' = l /\
      (fun f => loop (dleaves_body gvc) f (false, mkDl None B T I)) ⇓ Ok (Some v, mkDl None B T' I').
  Proof.
    induction T as [|[|n top] rest IH]; intros B I.
    - left; split; [reflexivity|exists I; auto].
    - destruct (IH B (tl I)) as [[E (I' & H)]|(v & l & T' & I' & E & E' & H)].
      + left; split; [exact E|]; exists I'; intros r Hr; eapply loop_step; [now_conv|apply H, Hr].
      + right; exists v, l, T', I'; split; [exact E|split; [exact E'|]]; eapply loop_step; [now_conv|exact H].
    - right; destruct (leavesN_ne n) as (v & l & En).
      destruct (dl_descend n B (top :: rest) I) as (s' & T' & I' & Hl & -> & E).
      exists v, (l ++ outT (top :: rest)), T', I'; split; [|split].
      + unfold outT; cbn; rewrite En; reflexivity.
      + rewrite E, En; reflexivity.
      + rewrite En in Hl; eapply loop_step; [apply conv_eq; intros f; cbn; rewrite (gv_eq gvc); reflexivity|exact Hl].
  Qed.

  Lemma dl_bottom_loop k : forall B I, length B + length (concat B) <= k ->
    (outB B = [] /\ exists I', (fun f => loop (dleaves_body gvc) f (false, mkDl None B [] I)) ⇓ Ok (None, mkDl None [] [] I')) \/
    exists v l B' T' I', outB B = v :: l /\ outT T' ++ outB B' = l /\
      (fun f => loop (dleaves_body gvc) f (false, mkDl None B [] I)) ⇓ Ok (Some v, mkDl None B' T' I').
  Proof.
    induction k as [|k IH]; intros B I Hk; destruct B as [|[|n top] rest]; cbn in Hk; try lia.
    - left; split; [reflexivity|exists I; apply loop_done; now_conv].
    - left; split; [reflexivity|exists I; apply loop_done; now_conv].
    - destruct (IH rest I ltac:(lia)) as [[E (I' & H)]|(v & l & B' & T' & I' & E & E' & H)].
      + left; split; [exact E|]; exists I'; eapply loop_step; [now_conv|exact H].
      + right; exists v, l, B', T', I'; split; [exact E|split; [exact E'|]]; eapply loop_step; [now_conv|exact H].
    - assert (Hstep : (fun f => dleaves_body gvc f (false, mkDl None ((n :: top) :: rest) [] I)) ⇓
                      Ok (inl (false, mkDl None (top :: rest) [kids n] (value n :: I)))).
      { apply conv_eq; intros f; cbn; rewrite (gv_eq gvc); reflexivity. }
      assert (HO : outB ((n :: top) :: rest) = outT [kids n] ++ outB (top :: rest)).
      { unfold outB, outT; cbn [concat flat_map app]; f_equal; rewrite app_nil_r.
        unfold skipN; rewrite leavesN_unfold; unfold is_leaf; destruct (kids n); reflexivity. }
      destruct (dl_top_loop [kids n] (top :: rest) (value n :: I)) as [[E (I1 & H)]|(v & l & T' & I' & E & E' & H)].
      + rewrite HO, E; cbn [app].
        destruct (IH (top :: rest) I1) as [[E1 (I' & H')]|(v & l & B' & T' & I' & E1 & E1' & H')]; [cbn; lia| |].
        * left; split; [exact E1|exists I'; eapply loop_step; [exact Hstep|apply H, H']].
        * right; exists v, l, B', T', I'; split; [exact E1|split; [exact E1'|]].
          eapply loop_step; [exact Hstep|apply H, H'].
      + right; exists v, (l ++ outB (top :: rest)), (top :: rest), T', I'; split; [|split].
        * rewrite HO, E; reflexivity.
        * rewrite E'; reflexivity.
        * eapply loop_step; [exact Hstep|exact H].
  Qed.

  Definition dl_R (s : dleaves Nd V) (l : list V) : Prop :=
    match dl_root s with
    | Some n => dl_top s = [] /\ dl_bottom s = [] /\ l = leavesN n
    | None => l = outT (dl_top s) ++ outB (dl_bottom s)
    end.

  Lemma dl_step : step_inv (dleaves_next gvc) dl_R.
  Proof.
    intros [[n|] B T I] l H; unfold dl_R, dleaves_next in *; cbn [dl_root dl_top dl_bottom dl_items] in *.
    - destruct H as (-> & -> & ->); rewrite (gv_eq gvc).
      destruct (dl_descend n [] [] I) as (s' & T' & I' & Hl & -> & E).
      exists (mkDl None [] T' I'); split; [exact Hl|]; cbn [dl_root dl_top dl_bottom]; rewrite E; cbn; rewrite !app_nil_r; reflexivity.
    - subst l; destruct (dl_top_loop T B I) as [[E (I1 & H)]|(v & l & T' & I' & E & E' & H)]; rewrite E; cbn [app hd_error tl].
      + destruct (dl_bottom_loop _ B I1 (le_n _)) as [[E1 (I' & H')]|(v & l & B' & T' & I' & E1 & E1' & H')]; rewrite E1.
        * eexists; split; [apply H, H'|reflexivity].
        * eexists; split; [apply H, H'|]; cbn; auto.
      + eexists; split; [exact H|]; cbn [dl_root dl_top dl_bottom]; rewrite E'; reflexivity.
  Qed.

  Lemma dleaves_yields_mid B I : yields (dleaves_next gvc) (mkDl None B [] I) (flat_map skipN (concat B)).
  Proof. apply (step_inv_yields _ _ dl_step); reflexivity. Qed.

  Lemma dleaves_yields_fresh n I : yields (dleaves_next gvc) (mkDl (Some n) [] [] I) (map value (filter leaf (preorder (nt n)))).
  Proof. apply (step_inv_yields _ _ dl_step); repeat split. Qed.
End DLeaves.

(** ** Depth-first leaves with ancestors, from a fresh iterator *)
Lemma line_path {A} (t : tree A) : forall p q ab,
  tree_map line (annotate p ab t) = tree_map line (annotate q ab t).
Proof.
  induction t as [v ts IH] using tree_ind'; intros p q ab; cbn; f_equal.
  generalize 0 as i; induction IH as [|x l Hx _ IHl]; intros i; cbn; [reflexivity|].
  rewrite (Hx _ (q ++ [i])), IHl; reflexivity.
Qed.

Section DALeaves.
  Context {Nd V : Type} (gvc : Nd -> V * list Nd) (nt : Nd -> tree Nd).
  Hypothesis Hnt : node_tree gvc nt.
  Local Notation value := (nval gvc).
  Local Notation kids := (nkids gvc).
  Local Notation leaf := (is_leaf gvc).

  Definition aleaf (ab : list Nd) (n : Nd) : list (list V) :=
    map (map value) (filter (last_is leaf) (preorder (tree_map line (annotate [] ab (nt n))))).

  Lemma aleaf_eq n : aleaf [] n = map (ancestors_at gvc) (filter (fun p => leaf (pos_here p)) (preorder (positions (nt n)))).
  Proof.
    unfold aleaf; rewrite preorder_map, filter_map, map_map.
    rewrite (filter_ext (fun x => last_is leaf (line x)) (fun p => leaf (pos_here p))) by (intros; apply last_is_line); reflexivity.
  Qed.

  Lemma aleaf_unfold ab n : aleaf ab n = if leaf n then [map value (ab ++ [n])] else flat_map (aleaf (ab ++ [n])) (kids n).
  Proof.
    unfold aleaf at 1; rewrite (nt_unfold _ _ Hnt n); cbn [annotate tree_map preorder filter].
    rewrite last_is_line; cbn [pos_here line pos_above].
    assert (E : forall i, map (map value) (filter (last_is leaf) (flat_map preorder (map (tree_map line)
       (mapi (fun i c => annotate ([] ++ [i]) (ab ++ [n]) c) i (map nt (kids n)))))) = flat_map (aleaf (ab ++ [n])) (kids n)).
    { induction (kids n) as [|c cs IH]; intros i; [reflexivity|]; cbn [map mapi flat_map].
      rewrite filter_app, map_app; f_equal; [|apply IH].
      unfold aleaf; rewrite (line_path _ [i] []); reflexivity. }
    destruct (leaf n) eqn:El.
    - unfold is_leaf in El; destruct (kids n); [reflexivity|discriminate].
    - apply E.
  Qed.
  Lemma aleaf_ne n : forall ab, exists v l, aleaf ab n = v :: l.
  Proof.
    revert n; refine (node_ind gvc nt Hnt _ _); intros n IH ab; rewrite aleaf_unfold.
    unfold is_leaf; destruct (kids n) as [|c cs] eqn:Ek; [eauto|].
    inversion IH as [|? ? Hc _]; subst; destruct (Hc (ab ++ [n])) as (v & l & E); cbn; rewrite E; cbn; eauto.
  Qed.

  (** [new]: iterators; [anc]: their owners, innermost first. *)
  Fixpoint aoutL (new : list (list Nd)) (anc : list Nd) : list (list V) :=
    match new, anc with
    | top :: new', _ :: anc' => flat_map (aleaf (rev anc)) top ++ aoutL new' anc'
    | _, _ => []
    end.

  Definition da_R (s : daleaves Nd V) (l : list (list V)) : Prop :=
    match da_root s with
    | Some n => da_items s = [] /\ da_old s = [] /\ da_new s = [] /\ l = aleaf [] n
    | None => da_old s = [] /\ exists anc, da_items s = map value anc /\ length (da_new s) = pred (length anc) /\
                                           l = aoutL (da_new s) (tl anc)
    end.

  Lemma da_descend : forall n anc new, length new = length anc ->
    exists s', (fun f => loop (daleaves_body gvc) f (true, mkDa None (map value (n :: anc)) [] (kids n :: new))) ⇓ Ok s' /\
      daleaves_get s' = hd_error (aleaf (rev anc) n) /\ da_root s' = None /\ da_R s' (tl (aleaf (rev anc) n) ++ aoutL new anc).
  Proof.
    refine (node_ind gvc nt Hnt _ _); intros n IH anc new Hlen; rewrite aleaf_unfold.
    destruct (kids n) as [|c cs] eqn:Ek; unfold is_leaf; rewrite Ek.
    - exists (mkDa None (map value (n :: anc)) [] new); split; [apply loop_done; now_conv|].
      split; [unfold daleaves_get; cbn [da_items map]; change (value n :: map value anc) with (map value (n :: anc)); rewrite <- map_rev; reflexivity|].
      split; [reflexivity|]; unfold da_R; cbn [da_root da_old da_items da_new]; split; [reflexivity|].
      exists (n :: anc); cbn; repeat split; assumption.
    - inversion IH as [|? ? Hc _]; subst.
      destruct (Hc (n :: anc) (cs :: new)) as (s' & Hl & Hg & Hr & HR); [cbn; lia|].
      destruct (aleaf_ne c (rev (n :: anc))) as (v & l & Ec).
      exists s'; split; [|split; [|split; [exact Hr|]]].
      + eapply loop_step; [apply conv_eq; intros f; cbn; rewrite (gv_eq gvc); reflexivity|exact Hl].
      + rewrite Hg; cbn [flat_map]; change (rev anc ++ [n]) with (rev (n :: anc)); rewrite Ec; reflexivity.
      + cbn [flat_map]; change (rev anc ++ [n]) with (rev (n :: anc)); rewrite Ec in *.
        cbn [app tl aoutL] in *; rewrite <- app_assoc; exact HR.
  Qed.

  Lemma da_loop new : forall anc, length new = length anc ->
    exists s', (fun f => loop (daleaves_body gvc) f (false, mkDa None (map value anc) [] new)) ⇓ Ok s' /\
      daleaves_get s' = hd_error (aoutL new anc) /\ da_root s' = None /\ da_R s' (tl (aoutL new anc)).
  Proof.
    induction new as [|[|c cs] rest IH]; intros [|a anc] Hlen; try discriminate.
    - exists (mkDa None [] [] []); split; [apply loop_done; now_conv|].
      split; [reflexivity|split; [reflexivity|split; [reflexivity|exists []; repeat split]]].
    - injection Hlen as Hlen; cbn [aoutL flat_map app].
      destruct anc as [|b anc].
      + destruct rest; [|discriminate].
        exists (mkDa None [] [] []); split; [apply loop_done; now_conv|].
        split; [reflexivity|split; [reflexivity|split; [reflexivity|exists []; repeat split]]].
      + destruct (IH (b :: anc) Hlen) as (s' & Hl & HH); exists s'; split; [|exact HH].
        eapply loop_step; [now_conv|exact Hl].
    - injection Hlen as Hlen.
      destruct (da_descend c (a :: anc) (cs :: rest)) as (s' & Hl & Hg & Hr & HR); [cbn; lia|].
      destruct (aleaf_ne c (rev (a :: anc))) as (v & l & Ec).
      exists s'; split; [|split; [|split; [exact Hr|]]].
      + eapply loop_step; [apply conv_eq; intros f; cbn; rewrite (gv_eq gvc); reflexivity|exact Hl].
      + rewrite Hg; cbn [aoutL flat_map]; rewrite Ec; reflexivity.
      + cbn [aoutL flat_map] in *; rewrite Ec in *; cbn [app tl] in *; rewrite <- app_assoc; exact HR.
  Qed.

  Lemma da_step : step_inv (daleaves_next gvc) da_R.
  Proof.
    intros [[n|] items old new] l H; unfold da_R, daleaves_next, daleaves_advance in *; cbn [da_root da_items da_old da_new] in *.
    - destruct H as (-> & -> & -> & ->).
      destruct (da_descend n [] [] eq_refl) as (s' & Hl & Hg & Hr & HR).
      exists s'; split; [|rewrite app_nil_r in HR; exact HR].
      rewrite (gv_eq gvc); eapply conv_bind; [exact Hl|]; cbn; cbn in Hg; rewrite Hg; now_conv.
    - destruct H as (-> & anc & -> & Hlen & ->).
      replace (tl (map value anc)) with (map value (tl anc)) by (destruct anc; reflexivity).
      destruct (da_loop new (tl anc)) as (s' & Hl & Hg & Hr & HR); [destruct anc; exact Hlen|].
      exists s'; split; [|exact HR].
      eapply conv_bind; [exact Hl|]; cbn; rewrite Hg; now_conv.
  Qed.

  Lemma daleaves_yields_fresh n : yields (daleaves_next gvc) (mkDa (Some n) [] [] [])
    (map (ancestors_at gvc) (filter (fun p => leaf (pos_here p)) (preorder (positions (nt n))))).
  Proof. apply (step_inv_yields _ _ da_step); repeat split; symmetry; apply aleaf_eq. Qed.
End DALeaves.
