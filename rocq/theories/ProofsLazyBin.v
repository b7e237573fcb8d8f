(** * Contexts of binary trees that are made as they are traversed, and traversals that never come back. *)
From Coq Require Import Permutation.
From Verif Require Import Prelim PrelimFacts Spec SpecFacts SpecObs SpecEdit SpecLazy ModelNode NodeFacts ModelPre ModelPost ModelBfs ModelLazy FuelMono.
From Verif Require Import Slots ProofsPlain ProofsPre ProofsPost ProofsBfs ProofsExact ProofsTree ProofsEdit ProofsOwnMore ProofsLazy ProofsLazyCtx ProofsLazyInst ProofsLazyRun.

Section Binary.
  Context {Nd V : Type}.
  Variable gvcb : Nd -> V * (option Nd * option Nd).

  Fixpoint bupto (m : nat) (o : option Nd) (o' : option (btree Nd)) : Prop :=
    match m with
    | 0 => True
    | S m' =>
        match o, o' with
        | None, None => True
        | Some n, Some (BNode v l r) => v = n /\ bupto m' (fst (nkids gvcb n)) l /\ bupto m' (snd (nkids gvcb n)) r
        | _, _ => False
        end
    end.
  Lemma bupto_le : forall m o o', bupto (S m) o o' -> bupto m o o'.
  Proof.
    induction m as [|m IH]; [intros; exact I|]; intros [n|] [[v l r]|]; try exact (fun H => H).
    intros [H [H1 H2]]; split; [exact H|]; split; apply IH; assumption.
  Qed.

  Variable R : nat -> option Nd -> option (btree Nd) -> Prop.
  Hypothesis R_le : forall m o o', R (S m) o o' -> R m o o'.
  Hypothesis R_node : forall m o o', R (S m) o o' ->
    match o, o' with
    | None, None => True
    | Some n, Some t => broot t = n /\ R m (fst (nkids gvcb n)) (bleft t) /\ R m (snd (nkids gvcb n)) (bright t)
    | _, _ => False
    end.
  Definition Rs m := Forall2 (R m).
  Definition Rb m (t : btree Nd) : Prop := R m (fst (nkids gvcb (broot t))) (bleft t) /\ R m (snd (nkids gvcb (broot t))) (bright t).

  Lemma Rs_of m t : Rb m t -> Uc gvcb pair_iter btree_gvcb pair_iter Rs m t.
  Proof. unfold Uc, Rs, Rb, pair_iter; rewrite nval_btree; destruct t as [v l r]; cbn; intros []; repeat constructor; assumption. Qed.
  Lemma Rs_le m it l : Rs (S m) it l -> Rs m it l.
  Proof. induction 1; constructor; auto. Qed.
  Lemma Rs_scan m it l : forall path found l' path', Rs (S m) it l -> prec_scan l path = Ok (found, l', path') ->
    exists it', prec_scan it path = Ok (option_map (nval btree_gvcb) found, it', path') /\
      (forall t, found = Some t -> Rs m it' l' /\ Uc gvcb pair_iter btree_gvcb pair_iter Rs m t).
  Proof.
    intros path found l' path' H; revert path; induction H as [|o o' it l Ho H IH]; intros path; cbn [prec_scan].
    - intros [= <- <- <-]; exists []; split; [reflexivity|discriminate].
    - destruct (incr_last path) as [p'| | |]; try discriminate; cbn [bindR].
      apply R_node in Ho; destruct o as [n|], o' as [u|]; try contradiction; [|exact (IH p')].
      destruct Ho as (Hn & H1 & H2); intros [= <- <- <-]; exists it; cbn [option_map]; rewrite nval_btree, Hn; split; [reflexivity|].
      intros w [= <-]; split; [apply Rs_le; exact H|apply Rs_of; unfold Rb; rewrite Hn; auto].
  Qed.
  Lemma Rs_fetch m it l : forall k found l' k', Rs (S m) it l -> bfsc_skip l k = Ok (found, l', k') ->
    exists it', bfsc_skip it k = Ok (option_map (nval btree_gvcb) found, it', k') /\
      (forall t, found = Some t -> Rs m it' l' /\ Uc gvcb pair_iter btree_gvcb pair_iter Rs m t).
  Proof.
    intros k found l' k' H; revert k; induction H as [|o o' it l Ho H IH]; intros k; cbn [bfsc_skip].
    - intros [= <- <- <-]; exists []; split; [reflexivity|discriminate].
    - apply R_node in Ho; destruct o as [n|], o' as [u|]; try contradiction.
      + destruct Ho as (Hn & H1 & H2); intros [= <- <- <-]; exists it; cbn [option_map]; rewrite nval_btree, Hn; split; [reflexivity|].
        intros w [= <-]; split; [apply Rs_le; exact H|apply Rs_of; unfold Rb; rewrite Hn; auto].
      + destruct (checked_succ k) as [k1| | |]; try discriminate; cbn [bindR]; apply IH.
  Qed.

  Variable t : btree Nd.
  Variable k : nat.
  Hypothesis Ht : Rb k t.
  Local Notation outs l := (map (nth_error l) (seq 0 k)).

  Lemma bpos_lab (o : forall X, tree X -> list X) : orderly o -> map (pos_map (nval btree_gvcb)) (o _ (flat (bannotate [] [] (bsubtrees t)))) = o _ (flat (bpositions t)).
  Proof.
    intros Ho; rewrite <- Ho, <- flat_btree_map; pose proof (bannotate_map (nval btree_gvcb) (bsubtrees t) [] []) as E; cbn [map] in E; rewrite <- E.
    rewrite (btree_map_ext _ broot) by apply nval_btree; rewrite bsubtrees_root; reflexivity.
  Qed.
  Lemma bhere (o : forall X, tree X -> list X) : orderly o -> map pos_here (o _ (flat (bpositions t))) = o _ (flat t).
  Proof. intros Ho; rewrite <- Ho, <- flat_btree_map; unfold bpositions; rewrite bannotate_here; reflexivity. Qed.

  Lemma run_prec_binary : exists s, calls (lprec_next gvcb pair_iter prec_scan) k (lprec_new (broot t) []) ⇓ Ok (outs (map (context_at gvcb) (preorder (flat (bpositions t)))), s) /\
    rev (lpc_log s) = firstn k (preorder (flat t)).
  Proof.
    destruct (precb_yields btree_gvcb pair_iter _ _ [] (slot_law_binary btree_gvcb bsubtrees node_btree_btree) (small_law_binary btree_gvcb) t I k) as (s1 & Hc).
    destruct (run_prec gvcb pair_iter prec_scan btree_gvcb pair_iter Rs Rs_le Rs_scan t k (Rs_of k t Ht) _ _ (bpos_lab (@preorder) orderly_pre) s1 Hc) as (s & H1 & H2).
    rewrite nval_btree in H1; exists s; split; [exact H1|]; rewrite H2, <- firstn_map, (bhere (@preorder) orderly_pre); reflexivity.
  Qed.
  Lemma run_bfsc_binary : exists s, calls (lbfsc_next gvcb pair_iter bfsc_skip) k (lbfsc_new gvcb (broot t) []) ⇓ Ok (outs (map (context_at gvcb) (bfs (flat (bpositions t)))), s) /\
    rev (lbc_log s) = firstn (Nat.max 1 k) (bfs (flat t)).
  Proof.
    destruct (bfscb_yields btree_gvcb pair_iter _ _ [] t (slot_law_binary btree_gvcb bsubtrees node_btree_btree) (small_law_binary btree_gvcb) I k) as (s1 & Hc).
    destruct (run_bfsc gvcb pair_iter bfsc_skip btree_gvcb pair_iter Rs Rs_le Rs_fetch t k (Rs_of k t Ht) _ _ (bpos_lab (@bfs) orderly_bfs) s1 Hc) as (s & H1 & H2).
    rewrite nval_btree in H1; exists s; split; [exact H1|]; rewrite H2; destruct k as [|k'].
    - rewrite nval_btree; unfold bfs; destruct t; reflexivity.
    - rewrite <- firstn_map, (bhere (@bfs) orderly_bfs); reflexivity.
  Qed.
End Binary.

Section BinaryPost.
  Context {Nd V : Type}.
  Variable gvcb : Nd -> V * (option Nd * option Nd).
  Variable W : nat -> list (list (option Nd)) -> list (list (option (btree Nd))) -> Prop.
  Hypothesis W_shape : forall m q2 q1, W m q2 q1 -> length q2 = length q1.
  Hypothesis W_nil : forall m, W m [] [].
  Hypothesis W_le : forall m q2 q1, W (S m) q2 q1 -> W m q2 q1.
  Hypothesis W_scan : forall m it q2 l q1 path found l' path', W (S m) (it :: q2) (l :: q1) -> prec_scan l path = Ok (found, l', path') ->
    exists it', prec_scan it path = Ok (option_map (nval btree_gvcb) found, it', path') /\
      match found with
      | Some t => W (S m) (pair_iter (nkids gvcb (nval btree_gvcb t)) :: it' :: q2) (pair_iter (nkids btree_gvcb t) :: l' :: q1)
      | None => W m q2 q1
      end.

  Lemma run_postc_binary t k : W k [pair_iter (nkids gvcb (broot t))] [[bleft t; bright t]] ->
    exists s, calls (lpostc_next gvcb pair_iter prec_scan) k (lpostc_new (broot t) []) ⇓ Ok (map (nth_error (map (context_at gvcb) (postorder (flat (bpositions t))))) (seq 0 k), s) /\
    Permutation (ltc_log s) (entered k (postorder (flat (bpositions t)))).
  Proof.
    intros Hw.
    destruct (postcb_yields btree_gvcb pair_iter _ _ [] (slot_law_binary btree_gvcb bsubtrees node_btree_btree) (small_law_binary btree_gvcb) t I k) as (s1 & Hc).
    destruct (run_postc gvcb pair_iter prec_scan btree_gvcb pair_iter t k _ _ (bpos_lab t (@postorder) orderly_post) W W_shape W_nil W_le W_scan) with (s1 := s1) as (s & H1 & H2).
    - rewrite nval_btree; destruct t; exact Hw.
    - exact Hc.
    - rewrite nval_btree in H1; eauto.
  Qed.
End BinaryPost.

Section BinaryTrees.
  Context {Nd V : Type}.
  Variable gvcb : Nd -> V * (option Nd * option Nd).

  Lemma bupto_node m o o' : bupto gvcb (S m) o o' ->
    match o, o' with
    | None, None => True
    | Some n, Some t => broot t = n /\ bupto gvcb m (fst (nkids gvcb n)) (bleft t) /\ bupto gvcb m (snd (nkids gvcb n)) (bright t)
    | _, _ => False
    end.
  Proof. destruct o as [n|], o' as [[v l r]|]; cbn; auto. Qed.
  Lemma bupto_cut : forall m d o, m <= S d -> bupto gvcb m o (option_map (bcut gvcb d) o).
  Proof.
    induction m as [|m IH]; [intros; exact I|]; intros d [n|] H; cbn [option_map]; [|exact I].
    destruct d as [|d]; [replace m with 0 by lia; cbn; auto|].
    cbn [bcut bupto]; split; [reflexivity|]; split; apply IH; lia.
  Qed.
  Lemma bupto_bcut m d n : m <= d -> Rb gvcb (bupto gvcb) m (bcut gvcb d n).
  Proof.
    intros H; unfold Rb; destruct d as [|d]; [replace m with 0 by lia; split; exact I|].
    cbn [bcut broot bleft bright]; split; apply bupto_cut; lia.
  Qed.
  Lemma broot_bcut d n : broot (bcut gvcb d n) = n.
  Proof. destruct d; reflexivity. Qed.

  Lemma bwhole_step o o' : bwhole_opt gvcb o o' ->
    match o, o' with
    | None, None => True
    | Some n, Some t => broot t = n /\ bwhole_opt gvcb (fst (nkids gvcb n)) (bleft t) /\ bwhole_opt gvcb (snd (nkids gvcb n)) (bright t)
    | _, _ => False
    end.
  Proof. intros [|c t [n l r H1 H2]]; cbn; auto. Qed.
  Lemma bwhole_root n t : bwhole gvcb n t -> broot t = n /\ Rb gvcb (fun _ => bwhole_opt gvcb) 0 t.
  Proof. intros [n0 l r H1 H2]; split; [reflexivity|split; assumption]. Qed.
End BinaryTrees.

(** ** Never coming back *)
Section Endless.
  Context {Nd V C It : Type}.
  Variable gv : Nd -> V * C.
  Variable into_iter : C -> It.
  Variable poll : It -> option Nd * It.
  Variable path : nat -> Nd.
  Hypothesis Hp : forall i, fst (poll (into_iter (nkids gv (path i)))) = Some (path (S i)).

  Lemma endless_post_loop F : forall i log items rest, loop (lpost_body gv into_iter poll) F (mkLpost log None items (into_iter (nkids gv (path i)) :: rest)) = OutOfFuel.
  Proof.
    induction F as [|F IH]; intros i log items rest; [reflexivity|]; cbn [loop]; unfold lpost_body at 1; cbn [lt_root lt_stack].
    specialize (Hp i) as E; destruct (poll (into_iter (nkids gv (path i)))) as [x it']; cbn [fst] in E; subst x.
    rewrite (gv_eq gv (path (S i))); apply IH.
  Qed.
  Lemma endless_post F : lpost_next gv into_iter poll F (lpost_new (path 0)) = OutOfFuel.
  Proof.
    unfold lpost_next; destruct F as [|F]; [reflexivity|]; cbn [loop]; unfold lpost_body at 1; cbn [lpost_new lt_root].
    rewrite (gv_eq gv (path 0)); apply endless_post_loop.
  Qed.
  Lemma endless_posta_loop F : forall i log items rest, loop (lposta_body gv into_iter poll) F (log, items, into_iter (nkids gv (path i)) :: rest) = OutOfFuel.
  Proof.
    induction F as [|F IH]; intros i log items rest; [reflexivity|]; cbn [loop]; unfold lposta_body at 1.
    specialize (Hp i) as E; destruct (poll (into_iter (nkids gv (path i)))) as [x it']; cbn [fst] in E; subst x.
    rewrite (gv_eq gv (path (S i))); apply IH.
  Qed.
  Lemma endless_posta F : lposta_next gv into_iter poll F (lpost_new (path 0)) = OutOfFuel.
  Proof.
    unfold lposta_next, lposta_advance; cbn [lpost_new lt_root lt_log lt_items lt_stack].
    rewrite (gv_eq gv (path 0)); rewrite endless_posta_loop; reflexivity.
  Qed.
  Lemma endless_postc_loop F : forall i log conts p anc rest, loop (lpostc_body gv into_iter (nary_scan poll)) F (log, into_iter (nkids gv (path i)) :: rest, conts, usize_max :: p, anc) = OutOfFuel.
  Proof.
    induction F as [|F IH]; intros i log conts p anc rest; [reflexivity|]; cbn [loop]; unfold lpostc_body at 1, nary_scan at 1.
    specialize (Hp i) as E; destruct (poll (into_iter (nkids gv (path i)))) as [x it']; cbn [fst] in E; subst x.
    cbn [incr_last bindR]; rewrite (gv_eq gv (path (S i))); apply IH.
  Qed.
  Lemma endless_postc F P : lpostc_next gv into_iter (nary_scan poll) F (lpostc_new (path 0) P) = OutOfFuel.
  Proof.
    unfold lpostc_next, lpostc_advance; cbn [lpostc_new ltc_root ltc_log ltc_stack ltc_conts ltc_path ltc_anc].
    rewrite (gv_eq gv (path 0)); rewrite endless_postc_loop; reflexivity.
  Qed.
End Endless.
