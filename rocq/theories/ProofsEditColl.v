(** * Edits over a collection: one tree after the other, the caller's state carried over.  No specification, no property theorems. *)
From Verif Require Import Prelim PrelimFacts Spec SpecFacts SpecObs SpecEdit ModelNode NodeFacts ModelBfs ModelPre ModelEdit ModelColl ModelEditColl Slots ProofsPlain
  ProofsColl ProofsEdit.

Lemma yl_step {S G A} (next : nat -> S * G -> Res (option A * (S * G))) s l g : yields_leaving next s l g ->
  exists s', (fun f => next f s) ⇓ Ok (hd_error l, s') /\ yields_leaving next s' (tl l) g.
Proof.
  intros [Hy Hg]; destruct (yields_step_inv next s l Hy) as (s' & Hn & Hy'); exists s'; split; [exact Hn|split; [exact Hy'|]].
  intros k os s2 Hk Hc; apply (Hg (Datatypes.S k) (hd_error l :: os) s2); [destruct l; cbn in *; lia|].
  cbn [calls]; eapply conv_bind; [exact Hn|]; cbv beta iota; eapply conv_bind; [exact Hc|]; apply conv_eq; reflexivity.
Qed.
Lemma yl_nil {S G A} (next : nat -> S * G -> Res (option A * (S * G))) s g0 g : yields_leaving next (s, g0) [] g -> g0 = g.
Proof. intros [_ Hg]; apply (Hg 0 [] (s, g0)); [apply le_n|apply conv_eq; reflexivity]. Qed.
Lemma edits_app {G X P C} (edit : G -> X -> G * C) (seen : P -> X) (kids : P -> C) xs ys : forall g g',
  edits_into edit seen kids g (xs ++ ys) g' -> exists g1, edits_into edit seen kids g xs g1 /\ edits_into edit seen kids g1 ys g'.
Proof.
  induction xs as [|x xs IH]; intros g g' H; cbn in H; [exists g; split; [constructor|exact H]|].
  inversion H as [|? ? ? g1 ? E H1]; subst; destruct (IH _ _ H1) as (g2 & H2 & H3); exists g2; split; [econstructor; eassumption|exact H3].
Qed.

Section Edited.
  Context {T S A C G X U : Type}.
  Variables (new : T -> list N -> S) (advance : nat -> S -> Res S) (get : S -> option A) (children : S -> option C) (set : S -> C -> S).
  Variable edit : G -> A -> G * C.
  Notation next := (fun f s => s' <- advance f s ;; Ok (get s', s')).
  Notation inner := (next_edited advance get children set edit).
  Notation body := (collc_body new next).
  Notation outer := (next_edited (collc_advance new next) (collc_get get) (cc_children children) (cc_set_children set) edit).
  (** Edited trees [U], with their roots and positions. *)
  Variables (root : U -> T) (posns : nat -> U -> list X) (seen : X -> A) (kids : X -> C) (ok : U -> Prop).
  Hypothesis Hne : forall i t, posns i t <> [].
  Hypothesis Hin : forall i t g g', ok t -> edits_into edit seen kids g (posns i t) g' ->
    yields_leaving inner (new (root t) [N.of_nat i], g) (map seen (posns i t)) g'.

  (** The rest of a call once [advance] has started. *)
  Definition finish (g : G) (r : Res (collc T S)) : Res (option A * (collc T S * G)) :=
    s <- r ;;
    match collc_get get s with
    | None => Ok (None, (s, g))
    | Some ctx => _ <- unwrap (cc_children children s) ;; let '(g, c) := edit g ctx in Ok (Some ctx, (cc_set_children set s c, g))
    end.
  Lemma outer_finish s g f : outer f (s, g) = finish g (loop body f s).
  Proof. reflexivity. Qed.
  Lemma finish_step g s s' r : (fun f => body f s) ⇓ Ok (inl s') -> (fun f => finish g (loop body f s')) ⇓ r -> (fun f => finish g (loop body f s)) ⇓ r.
  Proof.
    intros [F HF] [F' HF']; exists (Datatypes.S (F + F')); intros [|f] Hf; [lia|]; cbn [loop]; rewrite HF by lia; apply HF'; lia.
  Qed.

  (** Inside a tree. *)
  Lemma inside it g c l g1 trees index : yields_leaving inner (it, g) (c :: l) g1 ->
    exists it' g', (fun f => finish g (loop body f (mkCollc trees index (Some it)))) ⇓ Ok (Some c, (mkCollc trees index (Some it'), g')) /\
      yields_leaving inner (it', g') l g1.
  Proof.
    intros H; apply yl_step in H as ([it' g'] & [F HF] & Hy); exists it', g'; split; [|exact Hy].
    exists (Datatypes.S F); intros [|f] Hf; [lia|]; specialize (HF f ltac:(lia)); cbn [hd_error] in HF.
    cbn [loop]; unfold collc_body; cbn [cc_cur cc_trees cc_index]; unfold next_edited in HF.
    destruct (advance f it) as [it1| | |]; cbn [bindR] in *; try discriminate.
    destruct (get it1) as [ctx|] eqn:Eg; [|discriminate].
    unfold finish; cbn [bindR]; unfold collc_get, cc_children, cc_set_children; cbn [cc_cur cc_trees cc_index]; rewrite Eg.
    destruct (unwrap (children it1)) as [c0| | |]; cbn [bindR] in *; try discriminate.
    destruct (edit g ctx) as [g2 c2]; injection HF as <- <- <-; reflexivity.
  Qed.
  (** At its end. *)
  Lemma at_end it g g1 trees index : yields_leaving inner (it, g) [] g1 ->
    (fun f => body f (mkCollc trees index (Some it))) ⇓ Ok (collc_next_tree new (mkCollc trees index None)).
  Proof.
    intros H; apply yl_step in H as ([it' g'] & [F HF] & _); exists F; intros f Hf; specialize (HF f Hf); cbn [hd_error] in HF.
    unfold collc_body; cbn [cc_cur cc_trees cc_index]; unfold next_edited in HF.
    destruct (advance f it) as [it1| | |]; cbn [bindR] in *; try discriminate.
    destruct (get it1) as [ctx|] eqn:Eg; [|reflexivity].
    destruct (unwrap (children it1)) as [c0| | |]; cbn [bindR] in *; try discriminate.
    destruct (edit g ctx); discriminate.
  Qed.

  Definition rest (j : nat) (us : list U) : list X := concat (mapi posns j us).
  Definition edit_R (s : collc T S * G) (l : list A) (gend : G) : Prop :=
    let '(s, g) := s in
    exists us j, cc_trees s = map root us /\ Forall ok us /\
    (us = [] \/ cc_index s = enc j /\ (N.of_nat (j + length us) <= usize_max)%N) /\
    match cc_cur s with
    | Some it => exists l0 g1, yields_leaving inner (it, g) l0 g1 /\ edits_into edit seen kids g1 (rest j us) gend /\ l = l0 ++ map seen (rest j us)
    | None => edits_into edit seen kids g (rest j us) gend /\ l = map seen (rest j us)
    end.

  Lemma fresh us j index g gend : Forall ok us ->
    (us = [] \/ index = enc j /\ (N.of_nat (j + length us) <= usize_max)%N) -> edits_into edit seen kids g (rest j us) gend ->
    forall st, (fun f => body f st) ⇓ Ok (collc_next_tree new (mkCollc (map root us) index None)) ->
    exists s', (fun f => finish g (loop body f st)) ⇓ Ok (hd_error (map seen (rest j us)), s') /\ edit_R s' (tl (map seen (rest j us))) gend.
  Proof.
    intros Hok Hi He st Hst; destruct us as [|t us].
    - exists (mkCollc [] (wrapping_succ index) None, g); split.
      + destruct Hst as [F HF]; exists (Datatypes.S F); intros [|f] Hf; [lia|]; cbn [loop]; rewrite HF by lia; reflexivity.
      + exists [], 0; cbn; repeat split; auto.
    - inversion Hok as [|? ? Ht Hts]; subst; destruct Hi as [Hi|[-> Hi]]; [discriminate|]; cbn [length] in Hi.
      assert (Ei : wrapping_succ (enc j) = N.of_nat j) by (apply enc_succ; lia).
      unfold rest in *; cbn [mapi concat] in *; fold (rest (Datatypes.S j) us) in *.
      apply edits_app in He as (g1 & H1 & H2); pose proof (Hin j t g g1 Ht H1) as Hy.
      rewrite map_app; pose proof (Hne j t) as Hn; destruct (posns j t) as [|x xs]; [congruence|].
      cbn [map app hd_error tl] in *.
      destruct (inside _ _ _ _ _ (map root us) (N.of_nat j) Hy) as (it' & g' & Hf & Hy').
      exists (mkCollc (map root us) (N.of_nat j) (Some it'), g'); split.
      + eapply finish_step; [|exact Hf]; unfold collc_next_tree in Hst; cbn [cc_trees cc_index map] in Hst; rewrite Ei in Hst; exact Hst.
      + exists us, (Datatypes.S j); cbn [cc_trees cc_index cc_cur]; repeat split; auto.
        * right; split; [reflexivity|rewrite Nat.add_succ_r in Hi; exact Hi].
        * exists (map seen xs), g1; auto.
  Qed.

  Lemma edit_step gend : step_inv outer (fun s l => edit_R s l gend).
  Proof.
    intros [[trees index cur] g] l (us & j & Et & Hok & Hi & H); cbn [cc_trees cc_index cc_cur] in *; subst trees.
    assert (Ho : forall s' o, (fun f => finish g (loop body f (mkCollc (map root us) index cur))) ⇓ Ok (o, s') ->
      (fun f => outer f (mkCollc (map root us) index cur, g)) ⇓ Ok (o, s')).
    { intros s' o Hc; eapply conv_ext; [|exact Hc]; intros f; apply outer_finish. }
    destruct cur as [it|].
    - destruct H as (l0 & g1 & Hy & He & ->); destruct l0 as [|c l0].
      + pose proof (yl_nil _ _ _ _ Hy); subst g1.
        destruct (fresh us j index g gend Hok Hi He _ (at_end _ _ _ (map root us) index Hy)) as (s' & Hc & HR); exists s'; split; [apply Ho, Hc|exact HR].
      + destruct (inside _ _ _ _ _ (map root us) index Hy) as (it' & g' & Hf & Hy').
        exists (mkCollc (map root us) index (Some it'), g'); split; [apply Ho, Hf|].
        exists us, j; cbn [cc_trees cc_index cc_cur]; repeat split; auto; exists l0, g1; auto.
    - destruct H as [He ->].
      destruct (fresh us j index g gend Hok Hi He (mkCollc (map root us) index None)) as (s' & Hc & HR); [apply conv_eq; reflexivity|].
      exists s'; split; [apply Ho, Hc|exact HR].
  Qed.

  Lemma edit_R_end s gend : edit_R s [] gend -> snd s = gend.
  Proof.
    destruct s as [[trees index cur] g]; intros (us & j & Et & Hok & Hi & H); cbn [cc_trees cc_index cc_cur] in *.
    assert (Hr : forall g', edits_into edit seen kids g' (rest j us) gend -> [] = map seen (rest j us) -> g' = gend).
    { intros g' He E; destruct (rest j us); [inversion He; reflexivity|discriminate]. }
    destruct cur as [it|].
    - destruct H as (l0 & g1 & Hy & He & E); symmetry in E; apply app_eq_nil in E as [-> E].
      rewrite (yl_nil _ _ _ _ Hy); apply Hr; auto.
    - destruct H as [He E]; apply Hr; auto.
  Qed.

  Lemma edited_each us g gend : Forall ok us -> small_collection us ->
    edits_into edit seen kids g (each posns us) gend ->
    yields_leaving outer (mkCollc (map root us) usize_max None, g) (map seen (each posns us)) gend.
  Proof.
    intros Hok Hs He; assert (HR : edit_R (mkCollc (map root us) usize_max None, g) (map seen (each posns us)) gend).
    { exists us, 0; cbn [cc_trees cc_index cc_cur]; repeat split; auto. }
    split; [apply (step_inv_yields _ _ (edit_step gend)), HR|].
    intros k os s' Hk Hc; apply edit_R_end.
    assert (Ha : after outer k (mkCollc (map root us) usize_max None, g) s') by (eexists; exact Hc).
    pose proof (step_inv_after _ _ (edit_step gend) _ _ _ _ HR Ha) as H'; rewrite skipn_all2 in H' by exact Hk; exact H'.
  Qed.
End Edited.
