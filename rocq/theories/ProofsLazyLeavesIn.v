(** * [leaves()] of inorder iterators that have been advanced, over finite binary trees made as they are traversed. *)
From Verif Require Import Prelim PrelimFacts Spec SpecFacts SpecObs SpecLazy SpecLazyLeaves ModelNode NodeFacts ModelIn ModelLeaves ModelLazy ModelLazyIn ModelLazyLeaves ModelLazyLeavesIn FuelMono.
From Verif Require Import ProofsPlain ProofsIn ProofsTree ProofsLazy ProofsLazyInst ProofsLazyLeaves ProofsLazyIn ProofsLazyInRun.

Section MidIn.
  Context {Nd V : Type}.
  Variable gvcb : Nd -> V * (option Nd * option Nd).
  Local Notation value := (nval gvcb).
  Local Notation gb := (binary_gvc (@btree_gvcb Nd)).

  Definition wb (t : btree Nd) : Prop := bwhole gvcb (broot t) t.
  Definition wo (o : option (btree Nd)) : Prop := match o with Some t => wb t | None => True end.
  Local Notation rt := (option_map (@broot Nd)).

  Lemma whole_side o u : bwhole_opt gvcb o u -> o = rt u /\ wo u.
  Proof. intros [|c t H]; [split; [reflexivity|exact I]|]; cbn; inversion H; subst; cbn; auto. Qed.
  Lemma wb_kids n l r : wb (BNode n l r) -> gvcb n = (value n, (rt l, rt r)) /\ wo l /\ wo r.
  Proof.
    unfold wb; cbn [broot]; intros H; inversion H as [n' l' r' Hl Hr]; subst.
    apply whole_side in Hl as [El Hl], Hr as [Er Hr]; split; [|auto].
    unfold nval; destruct (gvcb n) as [v [a b]]; cbn in *; subst; reflexivity.
  Qed.
  Lemma both_map (l r : option (btree Nd)) : both (rt l, rt r) = map (@broot Nd) (both (l, r)).
  Proof. destruct l, r; reflexivity. Qed.
  Lemma both_wb l r : wo l -> wo r -> Forall wb (both (l, r)).
  Proof. destruct l, r; cbn; intros; repeat constructor; assumption. Qed.
  Lemma gb_node n l r : gb (BNode n l r) = (n, both (l, r)). Proof. reflexivity. Qed.

  Lemma hd_map {A B} (f : A -> B) l : hd_error (map f l) = option_map f (hd_error l). Proof. destruct l; reflexivity. Qed.
  Lemma tl_map {A B} (f : A -> B) l : tl (map f l) = map f (tl l). Proof. destruct l; reflexivity. Qed.

  (** *** The plain iterator *)
  Definition Rb (s1 : dleaves (btree Nd) Nd) (s2 : ldl Nd V (list Nd)) : Prop :=
    wo (dl_root s1) /\ Forall (Forall wb) (dl_bottom s1) /\ Forall (Forall wb) (dl_top s1) /\
    exists log, s2 = mkLdl log (rt (dl_root s1)) (map (map (@broot Nd)) (dl_bottom s1)) (map (map (@broot Nd)) (dl_top s1)) (map value (dl_items s1)).

  Lemma Rb_loop F : forall b s1 s2 x s1', Rb s1 s2 -> loop (dleaves_body gb) F (b, s1) = Ok (x, s1') ->
    exists s2', loop (ldl_body gvcb both front) F (b, s2) = Ok (option_map value x, s2') /\ Rb s1' s2'.
  Proof.
    induction F as [|F IH]; intros b [r1 b1 t1 i1] s2 x s1' (Hr & Hb & Ht & log & ->); [discriminate|]; cbn [dl_root dl_bottom dl_top dl_items] in *.
    cbn [loop]; unfold dleaves_body at 1, ldl_body at 1; cbn [dl_root dl_bottom dl_top dl_items ldl_root ldl_bottom ldl_top ldl_items ldl_log].
    destruct t1 as [|[|[n l r] q] t1]; cbn [map].
    - destruct b1 as [|[|[n l r] q] b1]; cbn [map front].
      + intros [= <- <-]; eexists; split; [reflexivity|]; repeat split; auto; exists log; reflexivity.
      + inversion Hb; subst; apply IH; repeat split; auto; exists log; reflexivity.
      + rewrite gb_node; inversion Hb as [|? ? Hq Hb']; inversion Hq as [|? ? Hn Hq']; subst.
        destruct (wb_kids _ _ _ Hn) as (E & Hl & Hrr); cbn [broot]; rewrite E, both_map; apply IH; repeat split; cbn [dl_root dl_bottom dl_top]; auto using both_wb.
        eexists; reflexivity.
    - inversion Ht; subst; cbn [front]; rewrite hd_map, tl_map; destruct b.
      + intros [= <- <-]; eexists; split; [reflexivity|]; repeat split; auto; exists log; reflexivity.
      + apply IH; repeat split; auto; exists log; reflexivity.
    - rewrite gb_node; inversion Ht as [|? ? Hq Ht']; inversion Hq as [|? ? Hn Hq']; subst.
      destruct (wb_kids _ _ _ Hn) as (E & Hl & Hrr); cbn [broot front]; rewrite E, both_map; apply IH; repeat split; cbn [dl_root dl_bottom dl_top]; auto using both_wb.
      eexists; reflexivity.
  Qed.
  Lemma Rb_step F s1 s2 x s1' : Rb s1 s2 -> dleaves_next gb F s1 = Ok (x, s1') ->
    exists s2', ldl_next gvcb both front F s2 = Ok (option_map value x, s2') /\ Rb s1' s2'.
  Proof.
    intros HR; pose proof HR as (Hr & Hb & Ht & log & ->); unfold dleaves_next, ldl_next; cbn [ldl_root].
    destruct (dl_root s1) as [[n l r]|] eqn:Er; cbn [option_map broot].
    - rewrite gb_node; destruct (wb_kids _ _ _ Hr) as (E & Hl & Hrr); rewrite E, both_map; apply Rb_loop; repeat split; cbn [dl_root dl_bottom dl_top]; auto using both_wb.
      eexists; reflexivity.
    - apply Rb_loop; exact HR.
  Qed.
  Lemma yields_Rb s1 s2 l : Rb s1 s2 -> yields (dleaves_next gb) s1 l -> yields (ldl_next gvcb both front) s2 (map value l).
  Proof.
    intros HR Hy k; destruct (Hy k) as (s1' & Hc).
    destruct (follow _ _ _ (fun F => F) (fun _ _ => Rb) (fun F _ _ => Rb_step F) (more_ldl gvcb both front) k s1 s2 _ _ HR Hc) as (s2' & Hc2 & _).
    rewrite map_outputs in Hc2; eauto.
  Qed.

  (** *** With ancestors *)
  Definition Rba (s1 : daleaves (btree Nd) Nd) (s2 : ldal Nd V (list Nd)) : Prop :=
    wo (da_root s1) /\ Forall (Forall wb) (da_old s1) /\ Forall (Forall wb) (da_new s1) /\
    exists log, s2 = mkLdal log (rt (da_root s1)) (map value (da_items s1)) (map (map (@broot Nd)) (da_old s1)) (map (map (@broot Nd)) (da_new s1)).
  Lemma tl_forall {A} (P : A -> Prop) l : Forall P l -> Forall P (tl l). Proof. intros []; [constructor|assumption]. Qed.

  Lemma Rba_loop F : forall b s1 s2 s1', Rba s1 s2 -> loop (daleaves_body gb) F (b, s1) = Ok s1' ->
    exists s2', loop (ldal_body gvcb both front) F (b, s2) = Ok s2' /\ Rba s1' s2'.
  Proof.
    induction F as [|F IH]; intros b [r1 i1 b1 t1] s2 s1' (Hr & Hb & Ht & log & ->); [discriminate|]; cbn [da_root da_old da_new da_items] in *.
    destruct t1 as [|[|[n l r] q] t1]; cbn [loop]; unfold daleaves_body at 1, ldal_body at 1;
      cbn [da_root da_old da_new da_items lda_root lda_old lda_new lda_items lda_log map front tl].
    3: { rewrite gb_node; inversion Ht as [|? ? Hq Ht']; inversion Hq as [|? ? Hn Hq']; subst.
      destruct (wb_kids _ _ _ Hn) as (E & Hl & Hrr); cbn [broot]; rewrite E, both_map; apply IH; repeat split; cbn [da_root da_old da_new]; auto using both_wb.
      eexists; reflexivity. }
    all: try (apply tl_forall in Ht; cbn [tl] in Ht).
    all: destruct b; [intros [= <-]; eexists; split; [reflexivity|]; repeat split; auto; eexists; reflexivity|].
    all: destruct b1 as [|[|[n l r] q] b1]; cbn [map front tl].
    all: try (rewrite gb_node; inversion Hb as [|? ? Hq Hb']; inversion Hq as [|? ? Hn Hq']; subst;
      destruct (wb_kids _ _ _ Hn) as (E & Hl & Hrr); cbn [broot]; rewrite E, both_map; apply IH; repeat split; cbn [da_root da_old da_new]; auto using both_wb;
      eexists; reflexivity).
    all: rewrite tl_map; apply tl_forall in Hb; cbn [tl] in Hb; destruct (tl i1) as [|v i]; cbn [map];
      [intros [= <-]; eexists; split; [reflexivity|]; repeat split; auto; eexists; reflexivity|apply IH; repeat split; auto; eexists; reflexivity].
  Qed.
  Lemma Rba_step F s1 s2 x s1' : Rba s1 s2 -> daleaves_next gb F s1 = Ok (x, s1') ->
    exists s2', ldal_next gvcb both front F s2 = Ok (option_map (map value) x, s2') /\ Rba s1' s2'.
  Proof.
    intros (Hr & Hb & Ht & log & ->); unfold daleaves_next, ldal_next, daleaves_advance, ldal_advance; cbn [lda_root].
    assert (Hend : forall b u1 u2, Rba u1 u2 -> (s' <- loop (daleaves_body gb) F (b, u1) ;; Ok (daleaves_get s', s')) = Ok (x, s1') ->
      exists s2', (s' <- loop (ldal_body gvcb both front) F (b, u2) ;; Ok (match lda_items s' with [] => None | items => Some (rev items) end, s')) = Ok (option_map (map value) x, s2') /\ Rba s1' s2').
    { intros b u1 u2 Hu; destruct (loop (daleaves_body gb) F (b, u1)) as [v1| | |] eqn:E; try discriminate; cbn [bindR]; intros [= <- <-].
      destruct (Rba_loop F b u1 u2 v1 Hu E) as (v2 & -> & Hv); cbn [bindR]; exists v2; split; [|exact Hv].
      destruct Hv as (_ & _ & _ & log' & ->); unfold daleaves_get; cbn [lda_items]; destruct (da_items v1) as [|y l]; [reflexivity|].
      cbn [map option_map]; rewrite map_rev; reflexivity. }
    destruct (da_root s1) as [[n l r]|]; cbn [option_map broot].
    - rewrite gb_node; destruct (wb_kids _ _ _ Hr) as (E & Hl & Hrr); rewrite E, both_map; apply Hend; repeat split; cbn [da_root da_old da_new]; auto using both_wb.
      eexists; reflexivity.
    - apply Hend; repeat split; cbn [da_root da_old da_new]; auto; cbn [lda_items]; rewrite tl_map; eexists; reflexivity.
  Qed.
  Lemma calls_Rba s1 s2 k os s1' : Rba s1 s2 -> calls (daleaves_next gb) k s1 ⇓ Ok (os, s1') ->
    exists s2', calls (ldal_next gvcb both front) k s2 ⇓ Ok (map (option_map (map value)) os, s2').
  Proof.
    intros HR Hc; destruct (follow _ _ _ (fun F => F) (fun _ _ => Rba) (fun F _ _ => Rba_step F) (more_ldal gvcb both front) k s1 s2 _ _ HR Hc) as (s2' & Hc2 & _); eauto.
  Qed.

  (** *** The iterators before [leaves()] *)
  Definition Ri (s1 : in_iter (btree Nd) Nd) (s2 : lin Nd V) : Prop :=
    Forall wo (in_right s1) /\ exists log, s2 = (log, mkIn (map rt (in_right s1)) (map value (in_items s1)) (in_moved s1)).

  Lemma find_map F : forall rights items r, Forall wo rights -> loop in_find_body F (rights, items) = Ok r ->
    match r with
    | inl (o, items', rights') => Forall wo rights' /\ loop in_find_body F (map rt rights, map value items) = Ok (inl (option_map value o, map value items', map rt rights'))
    | inr (c, rights') => wo c /\ Forall wo rights' /\ loop in_find_body F (map rt rights, map value items) = Ok (inr (rt c, map rt rights'))
    end.
  Proof.
    induction F as [|F IH]; intros rights items r Hw; [discriminate|]; cbn [loop]; unfold in_find_body at 1 3 5; rewrite !map_length.
    destruct (length rights =? length items).
    - intros [= <-]; split; [exact Hw|]; rewrite hd_map, tl_map; reflexivity.
    - destruct rights as [|o [|o' rights]]; cbn [map].
      + intros [= <-]; repeat split; auto.
      + intros [= <-]; inversion Hw; subst; repeat split; auto.
      + inversion Hw; subst; destruct o as [t|]; cbn [option_map].
        * intros [= <-]; repeat split; auto.
        * intros H; exact (IH (o' :: rights) items r ltac:(assumption) H).
  Qed.
  Lemma descend_map F : forall c rights items rights' items' log, wo c -> Forall wo rights -> loop (in_descend_body btree_gvcb) F (c, rights, items) = Ok (rights', items') ->
    Forall wo rights' /\ exists log', loop (lin_descend_body gvcb) F (log, (rt c, map rt rights, map value items)) = Ok (log', (map rt rights', map value items')).
  Proof.
    induction F as [|F IH]; intros c rights items rights' items' log Hc Hw; [discriminate|]; cbn [loop]; unfold in_descend_body at 1, lin_descend_body at 1.
    destruct c as [[n l r]|]; cbn [option_map broot btree_gvcb].
    - destruct (wb_kids _ _ _ Hc) as (E & Hl & Hr); rewrite E; intros H; exact (IH _ _ (n :: items) _ _ (n :: log) Hl (Forall_cons _ Hr Hw) H).
    - intros [= <- <-]; split; [exact Hw|eexists; reflexivity].
  Qed.
  Lemma Ri_step F s1 s2 x s1' : Ri s1 s2 -> in_next btree_gvcb F s1 = Ok (x, s1') ->
    exists s2', lin_next gvcb F s2 = Ok (option_map value x, s2') /\ Ri s1' s2'.
  Proof.
    intros (Hw & log & ->); unfold in_next, lin_next; cbn [in_right in_items].
    destruct (loop in_find_body F (in_right s1, in_items s1)) as [r| | |] eqn:E; try discriminate; cbn [bindR].
    pose proof (find_map F _ _ _ Hw E) as H; destruct r as [[[o items] rights]|[c rights]].
    - destruct H as [Hr H]; rewrite H; cbn [bindR]; intros [= <- <-]; eexists; split; [reflexivity|]; split; [exact Hr|eexists; reflexivity].
    - destruct H as (Hc & Hr & H); rewrite H; cbn [bindR].
      destruct (loop (in_descend_body btree_gvcb) F (c, rights, in_items s1)) as [[rights' items']| | |] eqn:E2; try discriminate; cbn [bindR]; intros [= <- <-].
      destruct (descend_map F _ _ _ _ _ log Hc Hr E2) as (Hr' & log' & H'); rewrite H'; cbn [bindR]; rewrite hd_map, tl_map.
      eexists; split; [reflexivity|]; split; [exact Hr'|eexists; reflexivity].
  Qed.

  Definition Ria (s1 : ina (btree Nd) Nd) (s2 : lina Nd V) : Prop :=
    Forall wo (ia_right s1) /\ exists log, s2 = (log, mkIna (map rt (ia_right s1)) (map value (ia_items s1)) (ia_status s1)).
  Lemma finda_map F : forall s1 r, Forall wo (ia_right s1) -> loop ina_find_body F s1 = Ok r ->
    match r with
    | Return s' => Forall wo (ia_right s') /\ loop ina_find_body F (mkIna (map rt (ia_right s1)) (map value (ia_items s1)) (ia_status s1)) =
        Ok (Return (mkIna (map rt (ia_right s')) (map value (ia_items s')) (ia_status s')))
    | Descend t s' => wb t /\ Forall wo (ia_right s') /\ loop ina_find_body F (mkIna (map rt (ia_right s1)) (map value (ia_items s1)) (ia_status s1)) =
        Ok (Descend (broot t) (mkIna (map rt (ia_right s')) (map value (ia_items s')) (ia_status s')))
    end.
  Proof.
    induction F as [|F IH]; intros [rights items st] r Hw; [discriminate|]; cbn [loop ia_right ia_items ia_status] in *; unfold ina_find_body at 1 3 5; cbn [ia_right ia_items ia_status].
    destruct st as [|[] st].
    - destruct rights as [|[t|] rights]; cbn [map option_map]; [intros [= <-]; auto| |]; inversion Hw; subst; [intros [= <-]; auto|].
      intros H; refine (IH (mkIna _ _ _) r _ H); assumption.
    - intros [= <-]; auto.
    - destruct rights as [|[t|] rights]; cbn [map option_map]; [intros [= <-]; auto| |]; inversion Hw; subst; [intros [= <-]; auto|].
      intros H; refine (IH (mkIna _ _ _) r _ H); assumption.
    - rewrite tl_map; intros H; exact (IH (mkIna _ _ _) r Hw H).
  Qed.
  Lemma descenda_map F : forall c s1 s1' log, wo c -> Forall wo (ia_right s1) -> loop (ina_descend_body btree_gvcb) F (c, s1) = Ok s1' ->
    Forall wo (ia_right s1') /\ exists log', loop (lina_descend_body gvcb) F (rt c, (log, mkIna (map rt (ia_right s1)) (map value (ia_items s1)) (ia_status s1))) =
      Ok (log', mkIna (map rt (ia_right s1')) (map value (ia_items s1')) (ia_status s1')).
  Proof.
    induction F as [|F IH]; intros c s1 s1' log Hc Hw; [discriminate|]; cbn [loop]; unfold ina_descend_body at 1, lina_descend_body at 1.
    destruct c as [[n l r]|]; cbn [option_map broot btree_gvcb ia_right ia_items ia_status].
    - destruct (wb_kids _ _ _ Hc) as (E & Hl & Hr); rewrite E; intros H; refine (IH _ (mkIna _ _ _) _ (n :: log) Hl _ H); exact (Forall_cons _ Hr Hw).
    - intros [= <-]; split; [exact Hw|eexists; reflexivity].
  Qed.
  Lemma Ria_step F s1 s2 x s1' : Ria s1 s2 -> ina_next btree_gvcb F s1 = Ok (x, s1') ->
    exists s2', lina_next gvcb F s2 = Ok (option_map (map value) x, s2') /\ Ria s1' s2'.
  Proof.
    intros (Hw & log & ->); unfold ina_next, lina_next, ina_advance, lina_advance.
    assert (Hget : forall s : ina (btree Nd) Nd, ina_get (mkIna (map rt (ia_right s)) (map value (ia_items s)) (ia_status s)) = option_map (map value) (ina_get s)).
    { intros s; unfold ina_get; cbn [ia_items]; destruct (ia_items s); [reflexivity|]; cbn [map option_map]; rewrite map_rev; reflexivity. }
    destruct (loop ina_find_body F s1) as [r| | |] eqn:E; try discriminate; cbn [bindR].
    pose proof (finda_map F _ _ Hw E) as H; destruct r as [s|t s].
    - destruct H as [Hr H]; rewrite H; cbn [bindR snd]; intros [= <- <-]; rewrite Hget; eexists; split; [reflexivity|]; split; [exact Hr|eexists; reflexivity].
    - destruct H as (Hc & Hr & H); rewrite H; cbn [bindR].
      destruct (loop (ina_descend_body btree_gvcb) F (Some t, s)) as [s'| | |] eqn:E2; try discriminate; cbn [bindR].
      destruct (descenda_map F (Some t) s s' log Hc Hr E2) as (Hr' & log' & H'); cbn [option_map] in H'; rewrite H'; cbn [bindR ia_status ia_right ia_items].
      destruct (set_returned (ia_status s')) as [st| | |]; try discriminate; cbn [bindR snd]; intros [= <- <-].
      rewrite (Hget (mkIna (ia_right s') (ia_items s') st) : ina_get (mkIna (map rt (ia_right s')) (map value (ia_items s')) st) = _).
      eexists; split; [reflexivity|]; split; [exact Hr'|eexists; reflexivity].
  Qed.

  (** *** [leaves()] *)
  Lemma Ri_leaves s1 s2 s1' : Ri s1 s2 -> in_leaves s1 = Ok s1' -> exists s2', lin_leaves s2 = Ok s2' /\ Rb s1' s2'.
  Proof.
    intros (Hw & log & ->); unfold in_leaves, lin_leaves; cbn [in_moved in_right in_items].
    assert (Hm : forall l, Forall wo l -> Forall (Forall wb) (map opt_list l) /\ map opt_list (map rt l) = map (map (@broot Nd)) (map opt_list l)).
    { intros l H; induction H as [|[t|] l Ho H [IH1 IH2]]; [split; constructor| |]; cbn [map opt_list option_map]; rewrite IH2; split; auto; constructor; auto. }
    destruct (in_moved s1).
    - intros [= <-]; destruct (Hm _ Hw) as [H1 H2]; eexists; split; [reflexivity|]; rewrite H2; repeat split; cbn [dl_root dl_bottom dl_top wo]; auto; eexists; reflexivity.
    - destruct (in_right s1) as [|r rs]; [discriminate|]; intros [= <-]; inversion Hw; subst; cbn [map]; eexists; split; [reflexivity|]; repeat split; cbn [dl_root dl_bottom dl_top]; auto; eexists; reflexivity.
  Qed.
  Lemma Ria_leaves s1 s2 : Ria s1 s2 -> Rba (ina_leaves s1) (lina_leaves s2).
  Proof.
    intros (Hw & log & ->); unfold ina_leaves, lina_leaves; cbn [ia_right ia_items].
    assert (Hm : forall l, Forall wo l -> Forall (Forall wb) (map opt_list l) /\ map opt_list (map rt l) = map (map (@broot Nd)) (map opt_list l)).
    { intros l H; induction H as [|[t|] l Ho H [IH1 IH2]]; [split; constructor| |]; cbn [map opt_list option_map]; rewrite IH2; split; auto; constructor; auto. }
    destruct (ia_right s1) as [|r [|r' rs]].
    - repeat split; cbn; auto; eexists; reflexivity.
    - inversion Hw; subst; repeat split; cbn [da_root da_old da_new]; auto; eexists; reflexivity.
    - destruct (Hm _ Hw) as [H1 H2]; cbn [map] in H2 |- *; rewrite H2; repeat split; cbn [da_root da_old da_new wo]; auto; eexists; reflexivity.
  Qed.

  Section Tree.
    Variables (n : Nd) (t : btree Nd).
    Hypothesis Hwh : bwhole gvcb n t.
    Lemma root_wb : broot t = n /\ wb t. Proof. inversion Hwh; subst; split; [reflexivity|exact Hwh]. Qed.

    Lemma mid_in k s : after (lin_next gvcb) k (lin_new n) s -> exists s1, after (in_next btree_gvcb) k (in_new t) s1 /\ Ri s1 s.
    Proof.
      destruct root_wb as [<- Ht]; intros [os H].
      destruct (in_yields btree_gvcb bsubtrees node_btree_btree t k) as (s1 & Hc).
      destruct (follow _ _ _ (fun F => F) (fun _ _ => Ri) (fun F _ _ => Ri_step F) (more_lin gvcb) k (in_new t) (lin_new (broot t)) _ _ (conj (Forall_cons _ (Ht : wo (Some t)) (Forall_nil _)) (ex_intro _ [] eq_refl)) Hc) as (s2 & Hc2 & HR).
      pose proof (conv_fun _ _ _ H Hc2) as E; injection E as _ ->; exists s1; split; [eexists; exact Hc|exact HR].
    Qed.
    Lemma mid_ina k s : after (lina_next gvcb) k (lina_new n) s -> exists s1, after (ina_next btree_gvcb) k (ina_new t) s1 /\ Ria s1 s.
    Proof.
      destruct root_wb as [<- Ht]; intros [os H].
      destruct (ina_yields btree_gvcb bsubtrees t node_btree_btree k) as (s1 & Hc).
      destruct (follow _ _ _ (fun F => F) (fun _ _ => Ria) (fun F _ _ => Ria_step F) (more_lina gvcb) k (ina_new t) (lina_new (broot t)) _ _ (conj (Forall_cons _ (Ht : wo (Some t)) (Forall_nil _)) (ex_intro _ [] eq_refl)) Hc) as (s2 & Hc2 & HR).
      pose proof (conv_fun _ _ _ H Hc2) as E; injection E as _ ->; exists s1; split; [eexists; exact Hc|exact HR].
    Qed.

    Lemma sub_wb : forall u, wb u -> Forall wb (inorder (bsubtrees u)).
    Proof.
      fix IH 1; intros [v l r] H; destruct (wb_kids _ _ _ H) as (_ & Hl & Hr); cbn [bsubtrees inorder]; apply Forall_app; split; [|constructor; [exact H|]].
      - destruct l as [u|]; [exact (IH u Hl)|constructor].
      - destruct r as [u|]; [exact (IH u Hr)|constructor].
    Qed.
    Lemma leaf_wb u : wb u -> is_bleaf gvcb (nval btree_gvcb u) = is_bleaf btree_gvcb u.
    Proof. destruct u as [v l r]; intros H; destruct (wb_kids _ _ _ H) as (E & _); unfold is_bleaf, nkids, nval; cbn; rewrite E; destruct l, r; reflexivity. Qed.

    Lemma in_filter (P : list nat -> bool) k :
      map value (map (fun p => nval btree_gvcb (pos_here p)) (filter (fun p => is_bleaf btree_gvcb (pos_here p) && P (pos_path p)) (skipn k (inorder (bpositions (bsubtrees t)))))) =
      map (fun p => value (pos_here p)) (filter (fun p => is_bleaf gvcb (pos_here p) && P (pos_path p)) (skipn k (inorder (bpositions t)))).
    Proof.
      rewrite <- (in_lab t), skipn_map; fold (bpositions (bsubtrees t)).
      assert (H : Forall (fun p => wb (pos_here p)) (skipn k (inorder (bpositions (bsubtrees t))))).
      { pose proof (sub_wb t (proj2 root_wb)) as H; rewrite <- (bannotate_here_inorder (bsubtrees t)) in H; rewrite Forall_map in H.
        rewrite <- (firstn_skipn k) in H; apply Forall_app in H as [_ H]; exact H. }
      induction H as [|p l Hx _ IH]; [reflexivity|]; cbn [map filter pos_map pos_here pos_path]; rewrite (leaf_wb _ Hx).
      destruct (is_bleaf btree_gvcb (pos_here p) && P (pos_path p)); cbn [map]; rewrite IH; reflexivity.
    Qed.
  End Tree.
End MidIn.
