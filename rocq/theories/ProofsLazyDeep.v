(** * What a postorder traversal needs of a tree that is made as it is traversed: that the children of the nodes it gives come to an end. *)
From Coq Require Import Permutation.
From Verif Require Import Prelim PrelimFacts Spec SpecFacts SpecObs SpecEdit SpecLazy ModelNode NodeFacts ModelPre ModelPost ModelBfs ModelLazy FuelMono.
From Verif Require Import Slots ProofsPlain ProofsPre ProofsPost ProofsBfs ProofsExact ProofsTree ProofsEdit ProofsOwnMore ProofsLazy ProofsLazyCtx ProofsLazyInst ProofsLazyRun ProofsLazyBin.

Lemma F2_len {A B} (R : A -> B -> Prop) l l' : Forall2 R l l' -> length l = length l'.
Proof. induction 1; cbn; auto. Qed.

(** The first [m] of a list of claims. *)
Definition hold (m : nat) (l : list Prop) : Prop := Forall (fun P : Prop => P) (firstn m l).
Lemma hold_le m l : hold (S m) l -> hold m l.
Proof.
  unfold hold; revert m; induction l as [|P l IH]; intros m; [rewrite !firstn_nil; auto|].
  destruct m as [|m]; [constructor|]; intros H; inversion H; subst; cbn [firstn]; constructor; auto.
Qed.
Lemma hold_nil m : hold m [].
Proof. unfold hold; rewrite firstn_nil; constructor. Qed.
Lemma hold_cons m (P : Prop) l : hold (S m) (P :: l) -> P /\ hold m l.
Proof. intros H; inversion H; auto. Qed.
Lemma hold_impl m l l' : Forall2 (fun P Q : Prop => P -> Q) l l' -> hold m l -> hold m l'.
Proof.
  intros H; revert m; induction H as [|P Q l l' HPQ H IH]; intros m; [auto|]; destruct m as [|m]; [constructor|].
  intros Hh; apply hold_cons in Hh as [H1 H2]; constructor; [auto|apply IH, H2].
Qed.
Lemma impl_refl (l : list Prop) : Forall2 (fun P Q : Prop => P -> Q) l l.
Proof. induction l; constructor; auto. Qed.
Lemma hold_of {A} (P : A -> Prop) (k : nat) (l : list A) (l' : list Prop) : Forall2 (fun a Q => P a -> Q : Prop) l l' -> Forall P (firstn k l) -> hold k l'.
Proof.
  unfold hold; intros H; revert k; induction H as [|a Q l l' HPQ H IH]; intros k; [rewrite !firstn_nil; constructor|].
  destruct k as [|k]; [constructor|]; cbn [firstn]; intros Hf; inversion Hf; subst; constructor; auto.
Qed.

Section Deep.
  Context {Nd V C It : Type}.
  Variable gv : Nd -> V * C.
  Variable into_iter : C -> It.
  Variable poll : It -> option Nd * It.
  Local Notation kids n := (into_iter (nkids gv n)).

  (** The whole tree *)
  Definition Wwhole (m : nat) := Forall2 (wholes gv into_iter poll).
  Lemma Wwhole_shape m q2 q1 : Wwhole m q2 q1 -> length q2 = length q1.
  Proof. apply F2_len. Qed.
  Lemma Wwhole_nil m : Wwhole m [] [].
  Proof. constructor. Qed.
  Lemma Wwhole_poll m it q2 l q1 : Wwhole (S m) (it :: q2) (l :: q1) ->
    match l with
    | [] => exists it', poll it = (None, it') /\ Wwhole m q2 q1
    | t :: l' => exists it', poll it = (Some (root t), it') /\ Wwhole (S m) (kids (root t) :: it' :: q2) (subs t :: l' :: q1)
    end.
  Proof.
    intros H; inversion H as [|? ? ? ? Hl Hq]; subst; apply wholes_poll in Hl; destruct l as [|t l].
    - destruct Hl as (it' & E); eauto.
    - destruct Hl as (it' & E & H1 & H2); exists it'; split; [exact E|]; repeat (constructor; [assumption|]); exact Hq.
  Qed.

  (** The beginning of a tree *)
  Inductive parts : It -> list (tree Nd) -> Prop :=
  | parts_nil it : parts it []
  | parts_cons it it' t l : poll it = (Some (root t), it') -> parts (kids (root t)) (subs t) -> parts it' l -> parts it (t :: l).
  Fixpoint ends (it : It) (l : list (tree Nd)) : Prop :=
    match l with
    | [] => exists it', poll it = (None, it')
    | _ :: l' => ends (snd (poll it)) l'
    end.
  Fixpoint claims (t : tree Nd) : list Prop :=
    match t with TNode n ts => flat_map claims ts ++ [ends (kids n) ts] end.
  Fixpoint stack_claims (q2 : list It) (q1 : list (list (tree Nd))) : list Prop :=
    match q2, q1 with
    | it :: q2', l :: q1' => flat_map claims l ++ ends it l :: stack_claims q2' q1'
    | _, _ => []
    end.
  Definition Wdeep (m : nat) (q2 : list It) (q1 : list (list (tree Nd))) : Prop := Forall2 parts q2 q1 /\ hold m (stack_claims q2 q1).
  Lemma Wdeep_shape m q2 q1 : Wdeep m q2 q1 -> length q2 = length q1.
  Proof. intros [H _]; exact (F2_len _ _ _ H). Qed.
  Lemma Wdeep_nil m : Wdeep m [] [].
  Proof. split; [constructor|apply hold_nil]. Qed.
  Lemma Wdeep_le m q2 q1 : Wdeep (S m) q2 q1 -> Wdeep m q2 q1.
  Proof. intros [H1 H2]; split; [exact H1|apply hold_le, H2]. Qed.
  Lemma Wdeep_poll m it q2 l q1 : Wdeep (S m) (it :: q2) (l :: q1) ->
    match l with
    | [] => exists it', poll it = (None, it') /\ Wdeep m q2 q1
    | t :: l' => exists it', poll it = (Some (root t), it') /\ Wdeep (S m) (kids (root t) :: it' :: q2) (subs t :: l' :: q1)
    end.
  Proof.
    intros [H Hc]; inversion H as [|? ? ? ? Hl Hq]; subst; destruct l as [|t l].
    - cbn in Hc; apply hold_cons in Hc as [(it' & E) Hc]; exists it'; split; [exact E|split; assumption].
    - inversion Hl as [|? it' ? ? E Ht Hl']; subst; exists it'; split; [exact E|]; split; [repeat (constructor; [assumption|]); exact Hq|].
      destruct t as [n ts]; cbn [stack_claims flat_map claims ends root subs] in *; rewrite E in Hc; cbn [snd] in Hc.
      rewrite <- !app_assoc in Hc; exact Hc.
  Qed.

  Lemma parts_cut b : forall d b' it, parts it (map (cut gv into_iter poll d b) (first_items poll b' it)).
  Proof.
    induction d as [|d IHd]; induction b' as [|b' IH]; intros it; cbn [first_items map]; try constructor;
      destruct (poll it) as [[n|] it'] eqn:E; cbn [map]; try constructor; econstructor; try exact E; try apply IH; cbn [cut root subs]; [constructor|apply IHd].
  Qed.
  Lemma parts_root d b n : parts (kids n) (subs (cut gv into_iter poll d b n)).
  Proof. destruct d; cbn [cut subs]; [constructor|apply parts_cut]. Qed.
  Lemma ends_first (f : Nd -> tree Nd) : forall b it, length (first_items poll b it) < b -> ends it (map f (first_items poll b it)).
  Proof.
    induction b as [|b IH]; intros it; [cbn; lia|]; cbn [first_items]; destruct (poll it) as [[n|] it'] eqn:E; cbn [length map ends]; intros H.
    - rewrite E; apply IH; lia.
    - eauto.
  Qed.

  Local Notation uncut := (uncut gv into_iter poll).
  Lemma claims_cut D b : forall d n path above, length path + d = D ->
    Forall2 (fun p P => uncut D b p -> P : Prop) (postorder (annotate path above (cut gv into_iter poll d b n))) (claims (cut gv into_iter poll d b n)).
  Proof.
    induction d as [|d IH]; intros n path above Hd; cbn [cut annotate postorder claims].
    - cbn; constructor; [|constructor]; intros [H _]; cbn [pos_path] in H; lia.
    - apply Forall2_app.
      + match goal with |- context [mapi ?f ?i ?l] => generalize i end.
        generalize (above ++ [n]); intros above'; clear above.
        induction (first_items poll b (into_iter (snd (gv n)))) as [|c l IHl]; intros j; cbn [map flat_map]; [constructor|].
        rewrite mapi_cons; cbn [flat_map]; apply Forall2_app; [|apply IHl].
        apply IH; rewrite app_length; cbn; lia.
      + constructor; [|constructor]; intros [_ H]; apply ends_first; exact H.
  Qed.
  Lemma deep_cut k d b n : Forall (uncut d b) (firstn k (postorder (positions (cut gv into_iter poll d b n)))) ->
    Wdeep k [kids n] [subs (cut gv into_iter poll d b n)].
  Proof.
    intros H; split; [constructor; [apply parts_root|constructor]|].
    pose proof (hold_of _ k _ _ (claims_cut d b d n [] [] eq_refl) H) as Hh.
    destruct (cut gv into_iter poll d b n) as [m ts] eqn:E; assert (m = n) as -> by (destruct d; injection E; auto); exact Hh.
  Qed.
End Deep.

Section DeepBinary.
  Context {Nd V : Type}.
  Variable gvcb : Nd -> V * (option Nd * option Nd).

  Inductive bpart : Nd -> btree Nd -> Prop :=
  | bpart_cut n : bpart n (BNode n None None)
  | bpart_node n l r : bpart_opt (fst (nkids gvcb n)) l -> bpart_opt (snd (nkids gvcb n)) r -> bpart n (BNode n l r)
  with bpart_opt : option Nd -> option (btree Nd) -> Prop :=
  | bpart_none : bpart_opt None None
  | bpart_some n t : bpart n t -> bpart_opt (Some n) (Some t).

  (** What the children are said to be, is what they are. *)
  Definition exact (it : list (option Nd)) (l : list (option (btree Nd))) : Prop := Forall2 bpart_opt it l.
  Definition bpart_iter (it : list (option Nd)) (l : list (option (btree Nd))) : Prop := exact it l \/ Forall (fun o => o = None) l.
  Fixpoint bclaims (t : btree Nd) : list Prop :=
    match t with
    | BNode n l r => match l with Some u => bclaims u | None => [] end ++ match r with Some u => bclaims u | None => [] end ++ [exact (pair_iter (nkids gvcb n)) [l; r]]
    end.
  Definition bclaims_opt (o : option (btree Nd)) : list Prop := match o with Some u => bclaims u | None => [] end.
  Fixpoint bstack_claims (q2 : list (list (option Nd))) (q1 : list (list (option (btree Nd)))) : list Prop :=
    match q2, q1 with
    | it :: q2', l :: q1' => flat_map bclaims_opt l ++ exact it l :: bstack_claims q2' q1'
    | _, _ => []
    end.
  Definition Wbdeep (m : nat) (q2 : list (list (option Nd))) (q1 : list (list (option (btree Nd)))) : Prop :=
    Forall2 bpart_iter q2 q1 /\ hold m (bstack_claims q2 q1).
  Lemma Wbdeep_shape m q2 q1 : Wbdeep m q2 q1 -> length q2 = length q1.
  Proof. intros [H _]; exact (F2_len _ _ _ H). Qed.
  Lemma Wbdeep_nil m : Wbdeep m [] [].
  Proof. split; [constructor|apply hold_nil]. Qed.
  Lemma Wbdeep_le m q2 q1 : Wbdeep (S m) q2 q1 -> Wbdeep m q2 q1.
  Proof. intros [H1 H2]; split; [exact H1|apply hold_le, H2]. Qed.

  Lemma exact_scan it l : exact it l -> forall path found l' path', prec_scan l path = Ok (found, l', path') ->
    exists it', prec_scan it path = Ok (option_map broot found, it', path') /\
      match found with
      | Some t => bpart (broot t) t /\ exact it' l' /\ flat_map bclaims_opt l = bclaims t ++ flat_map bclaims_opt l'
      | None => flat_map bclaims_opt l = []
      end.
  Proof.
    induction 1 as [|o o' it l Ho H IH]; intros path found l' path'; cbn [prec_scan].
    - intros [= <- <- <-]; exists []; auto.
    - destruct (incr_last path) as [p| | |]; try discriminate; cbn [bindR]; destruct Ho as [|n t Ht]; [apply IH|].
      intros [= <- <- <-]; exists it; cbn [option_map]; assert (E : broot t = n) by (destruct Ht; reflexivity); rewrite E; auto.
  Qed.
  Lemma nones_scan l : Forall (fun o : option (btree Nd) => o = None) l -> forall path found l' path', prec_scan l path = Ok (found, l', path') -> found = None.
  Proof.
    induction 1 as [|o l -> H IH]; intros path found l' path'; cbn [prec_scan]; [intros [= <- <- <-]; reflexivity|].
    destruct (incr_last path) as [p| | |]; try discriminate; cbn [bindR]; apply IH.
  Qed.
  Lemma nones_claims l : Forall (fun o : option (btree Nd) => o = None) l -> flat_map bclaims_opt l = [].
  Proof. induction 1 as [|o l -> H IH]; [reflexivity|exact IH]. Qed.
  Lemma bpart_kids n t : bpart n t -> bpart_iter (pair_iter (nkids gvcb n)) [bleft t; bright t].
  Proof. intros [m|m l r H1 H2]; cbn [bleft bright]; [right; repeat constructor|left; repeat constructor; assumption]. Qed.

  Lemma Wbdeep_scan m it q2 l q1 path found l' path' : Wbdeep (S m) (it :: q2) (l :: q1) -> prec_scan l path = Ok (found, l', path') ->
    exists it', prec_scan it path = Ok (option_map (nval btree_gvcb) found, it', path') /\
      match found with
      | Some t => Wbdeep (S m) (pair_iter (nkids gvcb (nval btree_gvcb t)) :: it' :: q2) (pair_iter (nkids btree_gvcb t) :: l' :: q1)
      | None => Wbdeep m q2 q1
      end.
  Proof.
    intros [H Hc] E; inversion H as [|? ? ? ? Hl Hq]; subst; cbn [bstack_claims] in Hc.
    assert (Hx : exact it l) by (destruct Hl as [Hl|Hl]; [exact Hl|rewrite (nones_claims l Hl) in Hc; apply hold_cons in Hc as [Hc _]; exact Hc]).
    destruct (exact_scan it l Hx _ _ _ _ E) as (it' & E' & Hf); exists it'; destruct found as [t|]; cbn [option_map] in *.
    - rewrite nval_btree; split; [exact E'|]; destruct Hf as (Ht & Hx' & Hcl); split.
      + constructor; [pose proof (bpart_kids _ _ Ht) as Hk; destruct t; exact Hk|]; constructor; [left; exact Hx'|exact Hq].
      + rewrite Hcl in Hc; refine (hold_impl _ _ _ _ Hc); destruct t as [n lt rt]; cbn [bstack_claims bclaims pair_iter nkids btree_gvcb fst snd flat_map broot]; unfold bclaims_opt at 2 3.
        rewrite ?app_nil_r, <- !app_assoc; cbn [app bclaims_opt flat_map].
        repeat first [apply Forall2_app; [apply impl_refl|]|constructor; [auto|]]; apply impl_refl.
    - split; [exact E'|]; rewrite Hf in Hc; apply hold_cons in Hc as [_ Hc]; split; assumption.
  Qed.

  Lemma bpart_bcut : forall d n, bpart n (bcut gvcb d n).
  Proof.
    induction d as [|d IH]; intros n; cbn [bcut]; [constructor|]; apply bpart_node; unfold nkids.
    - destruct (fst (snd (gvcb n))); cbn; constructor; apply IH.
    - destruct (snd (snd (gvcb n))); cbn; constructor; apply IH.
  Qed.
  Lemma bclaims_cut D : forall d n path above, length path + d = D ->
    Forall2 (fun p P => length (pos_path p) < D -> P : Prop) (postorder (flat (bannotate path above (bcut gvcb d n)))) (bclaims (bcut gvcb d n)).
  Proof.
    induction d as [|d IH]; intros n path above Hd; cbn [bcut bannotate flat postorder bclaims option_map].
    - cbn; constructor; [|constructor]; cbn [pos_path]; lia.
    - assert (IHl : forall i above o, Forall2 (fun p P => length (pos_path p) < D -> P : Prop)
        (flat_map postorder match option_map (bannotate (path ++ [i]) above) (option_map (bcut gvcb d) o) with Some x => [flat x] | None => [] end)
        match option_map (bcut gvcb d) o with Some u => bclaims u | None => [] end).
      { intros i a [c|]; cbn [option_map flat_map]; [|constructor]; rewrite app_nil_r; apply IH; rewrite app_length; cbn; lia. }
      rewrite flat_map_app, <- app_assoc; apply Forall2_app; [apply IHl|]; apply Forall2_app; [apply IHl|].
      constructor; [|constructor]; intros _; repeat constructor; unfold nkids.
      + destruct (fst (snd (gvcb n))); cbn; constructor; apply bpart_bcut.
      + destruct (snd (snd (gvcb n))); cbn; constructor; apply bpart_bcut.
  Qed.
  Lemma bdeep_cut k d n : Forall (fun p => length (pos_path p) < d) (firstn k (postorder (flat (bpositions (bcut gvcb d n))))) ->
    Wbdeep k [pair_iter (nkids gvcb n)] [[bleft (bcut gvcb d n); bright (bcut gvcb d n)]].
  Proof.
    intros H; split; [constructor; [apply bpart_kids, bpart_bcut|constructor]|].
    pose proof (hold_of _ k _ _ (bclaims_cut d d n [] [] eq_refl) H) as Hh.
    destruct (bcut gvcb d n) as [m l r] eqn:E; assert (m = n) as -> by (destruct d; injection E; auto); cbn [bstack_claims flat_map bleft bright bclaims bclaims_opt] in *.
    rewrite app_nil_r, <- app_assoc; exact Hh.
  Qed.
End DeepBinary.

Section WholeBinary.
  Context {Nd V : Type}.
  Variable gvcb : Nd -> V * (option Nd * option Nd).
  Definition Wbwhole (m : nat) := Forall2 (Forall2 (bwhole_opt gvcb)).
  Lemma Wbwhole_scan m it q2 l q1 path found l' path' : Wbwhole (S m) (it :: q2) (l :: q1) -> prec_scan l path = Ok (found, l', path') ->
    exists it', prec_scan it path = Ok (option_map (nval btree_gvcb) found, it', path') /\
      match found with
      | Some t => Wbwhole (S m) (pair_iter (nkids gvcb (nval btree_gvcb t)) :: it' :: q2) (pair_iter (nkids btree_gvcb t) :: l' :: q1)
      | None => Wbwhole m q2 q1
      end.
  Proof.
    intros H E; inversion H as [|? ? ? ? Hl Hq]; subst.
    destruct (Rs_scan gvcb (fun _ => bwhole_opt gvcb) (fun _ _ _ H => H) (fun _ => bwhole_step gvcb) m it l path found l' path' Hl E) as (it' & E' & Hf).
    exists it'; split; [exact E'|]; destruct found as [t|]; [|exact Hq]; destruct (Hf t eq_refl) as [H1 H2]; constructor; [exact H2|]; constructor; assumption.
  Qed.
End WholeBinary.
