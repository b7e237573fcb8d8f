(** * [leaves()] of depth first iterators that have been advanced, over finite trees made as they are traversed. *)
From Verif Require Import Prelim PrelimFacts Spec SpecFacts SpecObs SpecLazy SpecLazyLeaves ModelNode NodeFacts ModelPre ModelPost ModelBfs ModelLeaves ModelLazy ModelLazyLeaves FuelMono.
From Verif Require Import ProofsPlain ProofsPre ProofsPost ProofsExact ProofsTree ProofsLazy ProofsLazyInst ProofsLazyRun ProofsLazyDeep ProofsLazyLeaves.

Lemma positions_subtrees {A} (o : forall X, tree X -> list X) (Ho : orderly o) (t : tree A) : o _ (positions t) = map (pos_map root) (o _ (positions (subtrees t))).
Proof. rewrite <- Ho; unfold positions; pose proof (annotate_map (@root A) (subtrees t) [] []) as E; cbn [map] in E; rewrite <- E, subtrees_root; reflexivity. Qed.

Section Mid.
  Context {Nd V C It : Type}.
  Variable gv : Nd -> V * C.
  Variable into_iter : C -> It.
  Variable poll : It -> option Nd * It.
  Local Notation value := (nval gv).
  Local Notation kids n := (into_iter (nkids gv n)).
  Local Notation wholes := (wholes gv into_iter poll).

  Definition rooted (r1 : option (tree Nd)) (r2 : option Nd) : Prop :=
    r2 = option_map (@root Nd) r1 /\ forall t, r1 = Some t -> wholes (kids (root t)) (subs t).

  (** *** The plain iterator *)
  Definition Rd (s1 : dleaves (tree Nd) Nd) (s2 : ldl Nd V It) : Prop :=
    rooted (dl_root s1) (ldl_root s2) /\ Forall2 wholes (ldl_bottom s2) (dl_bottom s1) /\ Forall2 wholes (ldl_top s2) (dl_top s1) /\ ldl_items s2 = map value (dl_items s1).

  Lemma hd_map {A B} (f : A -> B) l : hd_error (map f l) = option_map f (hd_error l). Proof. destruct l; reflexivity. Qed.
  Lemma tl_map {A B} (f : A -> B) l : tl (map f l) = map f (tl l). Proof. destruct l; reflexivity. Qed.

  Lemma Rd_loop F : forall b s1 s2 x s1', Rd s1 s2 -> loop (dleaves_body tree_gvc) F (b, s1) = Ok (x, s1') ->
    exists s2', loop (ldl_body gv into_iter poll) F (b, s2) = Ok (option_map value x, s2') /\ Rd s1' s2'.
  Proof.
    induction F as [|F IH]; intros b [r1 b1 t1 i1] [log r2 b2 t2 i2] x s1' (Hr & Hb & Ht & Hi); [discriminate|]; cbn [dl_root dl_bottom dl_top dl_items ldl_root ldl_bottom ldl_top ldl_items] in *; subst i2.
    cbn [loop]; unfold dleaves_body at 1, ldl_body at 1; cbn [dl_root dl_bottom dl_top dl_items ldl_root ldl_bottom ldl_top ldl_items ldl_log].
    destruct Ht as [|it l t2 t1 Hl Ht].
    - destruct Hb as [|it l b2 b1 Hl Hb].
      + intros [= <- <-]; eexists; split; [reflexivity|]; repeat split; try apply Hr; constructor.
      + pose proof (wholes_poll gv into_iter poll it l Hl) as Hp; destruct l as [|[n ts] l]; cbn [root subs tree_gvc] in *.
        * destruct Hp as (it' & ->); apply IH; repeat split; try apply Hr; auto; constructor.
        * destruct Hp as (it' & -> & Hl' & Hk); rewrite (gv_eq gv n); apply IH; repeat split; try apply Hr; cbn [dl_bottom ldl_bottom dl_top ldl_top]; auto; constructor; auto.
    - pose proof (wholes_poll gv into_iter poll it l Hl) as Hp; destruct l as [|[n ts] l]; cbn [root subs tree_gvc] in *.
      + destruct Hp as (it' & ->); rewrite hd_map, tl_map; destruct b.
        * intros [= <- <-]; eexists; split; [reflexivity|]; repeat split; try apply Hr; auto.
        * apply IH; repeat split; try apply Hr; auto.
      + destruct Hp as (it' & -> & Hl' & Hk); rewrite (gv_eq gv n); apply IH; repeat split; try apply Hr; cbn [dl_bottom ldl_bottom dl_top ldl_top]; auto; constructor; auto; constructor; auto.
  Qed.
  Lemma Rd_step F s1 s2 x s1' : Rd s1 s2 -> dleaves_next tree_gvc F s1 = Ok (x, s1') ->
    exists s2', ldl_next gv into_iter poll F s2 = Ok (option_map value x, s2') /\ Rd s1' s2'.
  Proof.
    intros HR; pose proof HR as ([Hr Hw] & Hb & Ht & Hi); unfold dleaves_next, ldl_next; rewrite Hr.
    destruct (dl_root s1) as [[n ts]|]; cbn [option_map root tree_gvc]; [rewrite (gv_eq gv n)|]; apply Rd_loop; [|exact HR].
    specialize (Hw _ eq_refl); repeat split; cbn [dl_root dl_bottom dl_top dl_items ldl_root ldl_bottom ldl_top ldl_items]; auto; try discriminate; cbn [map]; rewrite Hi; reflexivity.
  Qed.

  (** *** With ancestors *)
  Definition Rda (s1 : daleaves (tree Nd) Nd) (s2 : ldal Nd V It) : Prop :=
    rooted (da_root s1) (lda_root s2) /\ Forall2 wholes (lda_old s2) (da_old s1) /\ Forall2 wholes (lda_new s2) (da_new s1) /\ lda_items s2 = map value (da_items s1).

  Lemma Rda_loop F : forall b s1 s2 s1', Rda s1 s2 -> loop (daleaves_body tree_gvc) F (b, s1) = Ok s1' ->
    exists s2', loop (ldal_body gv into_iter poll) F (b, s2) = Ok s2' /\ Rda s1' s2'.
  Proof.
    induction F as [|F IH]; intros b [r1 i1 b1 t1] [log r2 i2 b2 t2] s1' (Hr & Hb & Ht & Hi); [discriminate|]; cbn [da_root da_old da_new da_items lda_root lda_old lda_new lda_items] in *; subst i2.
    cbn [loop]; unfold daleaves_body at 1, ldal_body at 1; cbn [da_root da_old da_new da_items lda_root lda_old lda_new lda_items lda_log].
    assert (Hold : forall t1 t2, Forall2 wholes t2 t1 ->
      match (if b then Ok (inr (mkDa r1 i1 b1 t1)) else match b1 with
          | (n :: top) :: rest => let '(value, children) := tree_gvc n in Ok (inl (true, mkDa r1 (value :: i1) (top :: rest) (children :: t1)))
          | _ => match tl i1 with [] => Ok (inr (mkDa r1 (tl i1) (tl b1) t1)) | _ => Ok (inl (b, mkDa r1 (tl i1) (tl b1) t1)) end end) with
      | Ok (inl s') => loop (daleaves_body tree_gvc) F s' | Ok (inr r) => Ok r | Panic => Panic | UB => UB | OutOfFuel => OutOfFuel end = Ok s1' ->
      exists s2', match (if b then Ok (inr (mkLdal log r2 (map value i1) b2 t2)) else
          match match b2 with it :: rest => match poll it with (Some n, it') => Some (n, it' :: rest) | _ => None end | [] => None end with
          | Some (n, old) => let '(w, children) := gv n in Ok (inl (true, mkLdal (n :: log) r2 (w :: map value i1) old (into_iter children :: t2)))
          | None => match tl (map value i1) with [] => Ok (inr (mkLdal log r2 (tl (map value i1)) (tl b2) t2)) | _ => Ok (inl (b, mkLdal log r2 (tl (map value i1)) (tl b2) t2)) end end) with
        | Ok (inl s') => loop (ldal_body gv into_iter poll) F s' | Ok (inr r) => Ok r | Panic => Panic | UB => UB | OutOfFuel => OutOfFuel end = Ok s2' /\ Rda s1' s2').
    { clear t1 t2 Ht; intros t1 t2 Ht; destruct b.
      - intros [= <-]; eexists; split; [reflexivity|]; repeat split; try apply Hr; auto.
      - assert (Hpop : match (match tl i1 with [] => Ok (inr (mkDa r1 (tl i1) (tl b1) t1)) | _ => Ok (inl (false, mkDa r1 (tl i1) (tl b1) t1)) end) with
            | Ok (inl s') => loop (daleaves_body tree_gvc) F s' | Ok (inr r) => Ok r | Panic => Panic | UB => UB | OutOfFuel => OutOfFuel end = Ok s1' ->
          exists s2', match (match tl (map value i1) with [] => Ok (inr (mkLdal log r2 (tl (map value i1)) (tl b2) t2)) | _ => Ok (inl (false, mkLdal log r2 (tl (map value i1)) (tl b2) t2)) end) with
            | Ok (inl s') => loop (ldal_body gv into_iter poll) F s' | Ok (inr r) => Ok r | Panic => Panic | UB => UB | OutOfFuel => OutOfFuel end = Ok s2' /\ Rda s1' s2').
        { rewrite tl_map; assert (Htl : Forall2 wholes (tl b2) (tl b1)) by (destruct Hb; [constructor|assumption]); destruct (tl i1) as [|v l]; cbn [map].
          - intros [= <-]; eexists; split; [reflexivity|]; repeat split; try apply Hr; auto.
          - apply IH; repeat split; try apply Hr; auto. }
        destruct Hb as [|it l b2 b1 Hl Hb]; [exact Hpop|].
        pose proof (wholes_poll gv into_iter poll it l Hl) as Hp; destruct l as [|[n ts] l]; cbn [root subs tree_gvc] in *.
        + destruct Hp as (it' & ->); exact Hpop.
        + destruct Hp as (it' & -> & Hl' & Hk); rewrite (gv_eq gv n); apply IH; repeat split; try apply Hr; cbn [da_old lda_old da_new lda_new]; auto; constructor; auto. }
    destruct Ht as [|it l t2 t1 Hl Ht]; [exact (Hold [] [] (Forall2_nil _))|].
    pose proof (wholes_poll gv into_iter poll it l Hl) as Hp; destruct l as [|[n ts] l]; cbn [root subs tree_gvc] in *.
    - destruct Hp as (it' & ->); exact (Hold t1 t2 Ht).
    - destruct Hp as (it' & -> & Hl' & Hk); rewrite (gv_eq gv n); apply IH; repeat split; try apply Hr; cbn [da_old lda_old da_new lda_new]; auto; constructor; auto; constructor; auto.
  Qed.
  Lemma Rda_step F s1 s2 x s1' : Rda s1 s2 -> daleaves_next tree_gvc F s1 = Ok (x, s1') ->
    exists s2', ldal_next gv into_iter poll F s2 = Ok (option_map (map value) x, s2') /\ Rda s1' s2'.
  Proof.
    intros HR; pose proof HR as ([Hr Hw] & Hb & Ht & Hi); unfold daleaves_next, ldal_next, daleaves_advance, ldal_advance; rewrite Hr.
    assert (Hend : forall b u1 u2, Rda u1 u2 -> (s' <- loop (daleaves_body tree_gvc) F (b, u1) ;; Ok (daleaves_get s', s')) = Ok (x, s1') ->
      exists s2', (s' <- loop (ldal_body gv into_iter poll) F (b, u2) ;; Ok (match lda_items s' with [] => None | items => Some (rev items) end, s')) = Ok (option_map (map value) x, s2') /\ Rda s1' s2').
    { intros b u1 u2 Hu; destruct (loop (daleaves_body tree_gvc) F (b, u1)) as [v1| | |] eqn:E; try discriminate; cbn [bindR]; intros [= <- <-].
      destruct (Rda_loop F b u1 u2 v1 Hu E) as (v2 & -> & Hv); cbn [bindR]; exists v2; split; [|exact Hv].
      destruct Hv as (_ & _ & _ & ->); unfold daleaves_get; destruct (da_items v1) as [|y l]; [reflexivity|].
      cbn [map option_map]; rewrite map_rev; reflexivity. }
    destruct (da_root s1) as [[n ts]|]; cbn [option_map root tree_gvc]; [rewrite (gv_eq gv n)|]; apply Hend.
    - specialize (Hw _ eq_refl); repeat split; cbn [da_root da_old da_new da_items lda_root lda_old lda_new lda_items]; auto; try discriminate; cbn [map]; rewrite Hi; reflexivity.
    - repeat split; cbn [da_root da_old da_new da_items lda_root lda_old lda_new lda_items]; auto; try discriminate; rewrite Hi, tl_map; reflexivity.
  Qed.

  (** *** The iterators before [leaves()] *)
  Definition Rpo (s1 : post_iter (tree Nd) Nd) (s2 : lpost Nd V It) : Prop :=
    rooted (po_root s1) (lt_root s2) /\ Forall2 wholes (lt_stack s2) (po_stack s1) /\ lt_items s2 = map value (po_items s1).
  Lemma Rpo_loop F : forall s1 s2 x s1', Rpo s1 s2 -> loop (post_next_body tree_gvc) F s1 = Ok (x, s1') ->
    exists s2', loop (lpost_body gv into_iter poll) F s2 = Ok (option_map value x, s2') /\ Rpo s1' s2'.
  Proof.
    induction F as [|F IH]; intros [r1 i1 t1] [log r2 i2 t2] x s1' ([Hr Hw] & Ht & Hi); [discriminate|]; cbn [po_root po_items po_stack lt_root lt_items lt_stack] in *; subst i2 r2.
    cbn [loop]; unfold post_next_body at 1, lpost_body at 1; cbn [po_root po_items po_stack lt_root lt_items lt_stack lt_log].
    destruct r1 as [[n ts]|]; cbn [option_map root tree_gvc].
    - rewrite (gv_eq gv n); specialize (Hw _ eq_refl); apply IH; repeat split; cbn [po_root po_items po_stack lt_root lt_items lt_stack]; auto; discriminate || (constructor; auto).
    - destruct Ht as [|it l t2 t1 Hl Ht].
      + rewrite hd_map, tl_map; intros [= <- <-]; eexists; split; [reflexivity|]; repeat split; auto; discriminate || constructor.
      + pose proof (wholes_poll gv into_iter poll it l Hl) as Hp; destruct l as [|[n ts] l]; cbn [root subs tree_gvc] in *.
        * destruct Hp as (it' & ->); rewrite hd_map, tl_map; intros [= <- <-]; eexists; split; [reflexivity|]; repeat split; auto; discriminate || constructor.
        * destruct Hp as (it' & -> & Hl' & Hk); rewrite (gv_eq gv n); apply IH; repeat split; cbn [po_root po_items po_stack lt_root lt_items lt_stack]; auto; discriminate || (constructor; auto).
  Qed.

  Section Tree.
    Variables (n : Nd) (t : tree Nd).
    Hypothesis Hwh : whole gv into_iter poll n t.
    Let U : nat -> It -> list (tree Nd) -> Prop := fun _ => wholes.
    Let Ule : forall m it l, U (S m) it l -> U m it l. Proof. auto. Qed.
    Let Up := fun m : nat => wholes_poll gv into_iter poll.
    Lemma Hroot : root t = n /\ wholes (kids (root t)) (subs t). Proof. exact (whole_root gv into_iter poll n t Hwh). Qed.

    Lemma same_end {S1 S2 O1 O2} (next1 : nat -> S1 -> Res (O1 * S1)) (next2 : nat -> S2 -> Res (O2 * S2)) k s1 s2 os1 os2 s1' s2' s (R : S1 -> S2 -> Prop) :
      calls next1 k s1 ⇓ Ok (os1, s1') -> calls next2 k s2 ⇓ Ok (os2, s2') -> R s1' s2' -> after next2 k s2 s -> exists u, after next1 k s1 u /\ R u s.
    Proof. intros H1 H2 HR [os H3]; pose proof (conv_fun _ _ _ H2 H3) as E; injection E as _ <-; exists s1'; split; [exists os1; exact H1|exact HR]. Qed.

    Lemma mid_pre k s : after (lpre_next gv into_iter poll) k (lpre_new n) s -> exists s1, after (pre_next tree_gvc) k (pre_new t) s1 /\ Rd (pre_leaves s1) (lpre_leaves s).
    Proof.
      destruct Hroot as [Hr Ht]; rewrite <- Hr.
      destruct (pre_yields tree_gvc subtrees node_tree_tree t k) as (s1 & Hc).
      unshelve epose proof (follow _ _ _ (fun F => F) _ (pre_follow gv into_iter poll U Ule Up) (more_lpre gv into_iter poll) k (pre_new t) (lpre_new (root t)) _ _ _ Hc) as (s2 & Hc2 & _ & H2 & H3 & H4).
      - split; [reflexivity|]; split; [constructor|]; split; [reflexivity|]; intros u [= <-]; exact Ht.
      - eapply (same_end _ _ _ _ _ _ _ _ _ _ (fun s1 s2 => Rd (pre_leaves s1) (lpre_leaves s2)) Hc Hc2); repeat split; auto; constructor.
    Qed.
    Lemma mid_prea k s : after (lprea_next gv into_iter poll) k (lprea_new n) s -> exists s1, after (prea_next tree_gvc) k (prea_new t) s1 /\ Rda (prea_leaves s1) (lprea_leaves s).
    Proof.
      destruct Hroot as [Hr Ht]; rewrite <- Hr.
      destruct (prea_yields tree_gvc subtrees node_tree_tree t k) as (s1 & Hc).
      unshelve epose proof (follow _ _ _ (fun F => F) _ (prea_follow gv into_iter poll U Ule Up) (more_lprea gv into_iter poll) k (prea_new t) (lprea_new (root t)) _ _ _ Hc) as (s2 & Hc2 & _ & H2 & H3 & H4 & H5 & _).
      - split; [reflexivity|]; split; [constructor|]; split; [reflexivity|]; split; [reflexivity|]; split; [intros u [= <-]; exact Ht|reflexivity].
      - eapply (same_end _ _ _ _ _ _ _ _ _ _ (fun s1 s2 => Rda (prea_leaves s1) (lprea_leaves s2)) Hc Hc2); repeat split; auto; constructor.
    Qed.
    Lemma mid_post k s : after (lpost_next gv into_iter poll) k (lpost_new n) s -> exists s1, after (post_next tree_gvc) k (post_new t) s1 /\ Rd (post_leaves s1) (lpost_leaves s).
    Proof.
      destruct Hroot as [Hr Ht]; rewrite <- Hr.
      destruct (post_yields tree_gvc subtrees node_tree_tree t k) as (s1 & Hc).
      unshelve epose proof (follow _ _ _ (fun F => F) (fun _ _ => Rpo) (fun F _ _ => Rpo_loop F) (more_lpost gv into_iter poll) k (post_new t) (lpost_new (root t)) _ _ _ Hc) as (s2 & Hc2 & [H1 H2] & H3 & H4).
      - repeat split; [intros u [= <-]; exact Ht|constructor].
      - eapply (same_end _ _ _ _ _ _ _ _ _ _ (fun s1 s2 => Rd (post_leaves s1) (lpost_leaves s2)) Hc Hc2); repeat split; auto; constructor.
    Qed.
    Lemma mid_posta k s : after (lposta_next gv into_iter poll) k (lpost_new n) s -> exists s1, after (posta_next tree_gvc) k (post_new t) s1 /\ Rda (posta_leaves s1) (lposta_leaves s).
    Proof.
      destruct Hroot as [Hr Ht]; rewrite <- Hr.
      destruct (posta_yields tree_gvc subtrees node_tree_tree t k) as (s1 & Hc).
      unshelve epose proof (follow _ _ _ (fun F => F) _ (posta_follow gv into_iter poll _ (Wwhole_shape gv into_iter poll) (Wwhole_nil gv into_iter poll) (Wwhole_poll gv into_iter poll)) (more_lposta gv into_iter poll) k (post_new t) (lpost_new (root t)) _ _ _ Hc) as (s2 & Hc2 & _ & H2 & H3 & H4).
      - split; [constructor|]; split; [reflexivity|]; split; [reflexivity|]; split; [reflexivity|constructor; [exact Ht|constructor]].
      - eapply (same_end _ _ _ _ _ _ _ _ _ _ (fun s1 s2 => Rda (posta_leaves s1) (lposta_leaves s2)) Hc Hc2).
        destruct (po_root s1) as [u|] eqn:Er.
        + destruct H4 as [_ H4]; inversion H4; subst; repeat split; cbn [da_root posta_leaves lposta_leaves lda_root da_old lda_old da_new lda_new da_items lda_items]; try rewrite Er; auto; try constructor; try discriminate; intros ? [= <-]; assumption.
        + repeat split; cbn [da_root posta_leaves lposta_leaves lda_root da_old lda_old da_new lda_new da_items lda_items]; try rewrite Er; auto; try constructor; try discriminate.
    Qed.

    (** *** Leaves of the tree *)
    Lemma leaf_whole : forall u m, whole gv into_iter poll m u -> Forall (fun x => childless gv into_iter poll (root x) = is_leaf tree_gvc x) (preorder (subtrees u)).
    Proof.
      fix IH 1; intros [v us] m Hw; inversion Hw as [v' us' H E1 E2]; subst; cbn [subtrees preorder]; constructor.
      - cbn [root]; unfold childless, is_leaf; inversion H as [it it' Ep|it c it' t' ts' Ep Hc Hcs]; subst; rewrite Ep; reflexivity.
      - clear Hw; revert H; generalize (into_iter (snd (gv v))); revert us; fix IHl 1; intros [|u us] it H; [constructor|].
        inversion H as [|it0 c it' t' ts' Ep Hc Hcs]; subst; cbn [map flat_map]; apply Forall_app; split; [exact (IH u c Hc)|exact (IHl us it' Hcs)].
    Qed.

    Lemma mid_filter (o : forall X, tree X -> list X) (Ho : orderly o) (Hp : forall X (u : tree X), Permutation.Permutation (o X u) (preorder u)) (P : list nat -> bool) k :
      map value (map (fun p => nval tree_gvc (pos_here p)) (filter (fun p => is_leaf tree_gvc (pos_here p) && P (pos_path p)) (skipn k (o _ (positions (subtrees t)))))) =
      map (fun p => value (pos_here p)) (filter (fun p => childless gv into_iter poll (pos_here p) && P (pos_path p)) (skipn k (o _ (positions t)))).
    Proof.
      rewrite (positions_subtrees o Ho t), skipn_map.
      assert (H : Forall (fun p => childless gv into_iter poll (root (pos_here p)) = is_leaf tree_gvc (pos_here p)) (skipn k (o _ (positions (subtrees t))))).
      { apply Forall_forall; intros p Hin.
        assert (Hin' : In (pos_here p) (preorder (subtrees t))).
        { rewrite <- (here_positions (@preorder) orderly_pre (subtrees t)); apply in_map, (Permutation.Permutation_in _ (Hp _ _)).
          rewrite <- (firstn_skipn k); apply in_or_app; right; exact Hin. }
        pose proof (leaf_whole t n Hwh) as H; rewrite Forall_forall in H; exact (H _ Hin'). }
      induction H as [|p l Hx _ IH]; [reflexivity|]; cbn [map filter pos_map pos_here pos_path]; rewrite Hx.
      destruct (is_leaf tree_gvc (pos_here p) && P (pos_path p)); cbn [map]; rewrite IH; [|reflexivity].
      f_equal; rewrite nval_tree; reflexivity.
    Qed.
  End Tree.

  Lemma yields_Rd s1 s2 l : Rd s1 s2 -> yields (dleaves_next tree_gvc) s1 l -> yields (ldl_next gv into_iter poll) s2 (map value l).
  Proof.
    intros HR Hy k; destruct (Hy k) as (s1' & Hc).
    destruct (follow _ _ _ (fun F => F) (fun _ _ => Rd) (fun F _ _ => Rd_step F) (more_ldl gv into_iter poll) k s1 s2 _ _ HR Hc) as (s2' & Hc2 & _).
    rewrite map_outputs in Hc2; eauto.
  Qed.
  Lemma calls_Rda s1 s2 k os s1' : Rda s1 s2 -> calls (daleaves_next tree_gvc) k s1 ⇓ Ok (os, s1') ->
    exists s2', calls (ldal_next gv into_iter poll) k s2 ⇓ Ok (map (option_map (map value)) os, s2').
  Proof.
    intros HR Hc; destruct (follow _ _ _ (fun F => F) (fun _ _ => Rda) (fun F _ _ => Rda_step F) (more_ldal gv into_iter poll) k s1 s2 _ _ HR Hc) as (s2' & Hc2 & _); eauto.
  Qed.
  Lemma lasts_map (os : list (option (list Nd))) : lasts (map (option_map (map value)) os) = map value (lasts os).
  Proof.
    unfold lasts; induction os as [|[l|] os IH]; [reflexivity| |exact IH]; cbn [map flat_map option_map]; rewrite map_app, IH; f_equal.
    rewrite <- map_rev; destruct (rev l); reflexivity.
  Qed.
End Mid.
