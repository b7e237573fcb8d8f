(** The cells of one context: those of the values on the way down and of the children are different cells of the tree. *)
From Verif Require Import Prelim PrelimFacts Spec SpecFacts SpecObs ModelNode SpecAlias ModelAlias ProofsAlias ProofsAliasCtx.

Lemma in_mapi {A B} (f : nat -> A -> B) l : forall i y, In y (mapi f i l) -> exists j x, In x l /\ y = f j x.
Proof.
  induction l as [|a l IH]; intros i y; cbn; [intros []|]; intros [<-|H]; [exists i, a; split; [left|]; reflexivity|].
  destruct (IH _ _ H) as (j & x & Hx & E); exists j, x; split; [right|]; assumption.
Qed.
Lemma wsum_in {A} (w : A -> nat) x l : In x l -> w x <= wsum w l.
Proof. induction l as [|a l IH]; intros []; rewrite wsum_cons; [subst; lia|specialize (IH H); lia]. Qed.

Section Nary.
  Context {Nd V : Type} (gvc : Nd -> V * list Nd) (nt : Nd -> tree Nd).
  Hypothesis Hnt : node_tree gvc nt.
  Variable ncells : Nd -> list nat.
  Variable vcells : V -> list nat.
  Hypothesis H : takes_apart gvc ncells vcells.
  Lemma context_cells_at x t : forall n p ab, nt n = t -> forall c, In c (preorder (annotate p ab t)) ->
    cnt x (context_cells vcells (flat_map ncells) (Some (context_at gvc c))) <= wsum (kv vcells x) (map (nval gvc) ab) + kn ncells x n.
  Proof.
    induction t as [v ts IH] using tree_ind'; intros n p ab E c Hc.
    pose proof (Hnt n) as En; rewrite E in En; injection En as Ev Ets; subst v.
    pose proof (k_gvc ncells vcells x gvc H n) as Hg; cbn [annotate preorder] in Hc; destruct Hc as [<-|Hc].
    - unfold context_at; cbn [context_cells c_ancestors c_children pos_above pos_here]; rewrite cnt_app, kv_list, kn_list, map_app, wsum_app; cbn [map]; rewrite wsum_cons, wsum_nil; unfold nval, nkids; lia.
    - apply in_flat_map in Hc as (t' & Ht' & Hc); apply in_mapi in Ht' as (j & u & Hu & ->); rewrite Ets in Hu; apply in_map_iff in Hu as (m & Em & Hm).
      assert (Hu : In u ts) by (rewrite Ets; apply in_map_iff; exists m; split; assumption).
      rewrite Forall_forall in IH; specialize (IH u Hu m _ _ Em c Hc); rewrite map_app, wsum_app in IH; cbn [map] in IH; rewrite wsum_cons, wsum_nil in IH.
      pose proof (wsum_in (kn ncells x) m _ Hm); unfold nval in *; lia.
  Qed.
End Nary.
Section Binary.
  Context {Nd V : Type} (gvcb : Nd -> V * (option Nd * option Nd)) (bt : Nd -> btree Nd).
  Hypothesis Hbt : node_btree gvcb bt.
  Variable ncells : Nd -> list nat.
  Variable vcells : V -> list nat.
  Hypothesis H : takes_apart_binary gvcb ncells vcells.
  Lemma context_cells_at_binary x t : forall n p ab, bt n = t -> forall c, In c (preorder (flat (bannotate p ab t))) ->
    cnt x (context_cells vcells (pcells ncells) (Some (context_at gvcb c))) <= wsum (kv vcells x) (map (nval gvcb) ab) + kn ncells x n.
  Proof.
    induction t as [v l r IHl IHr] using btree_ind'; intros n p ab E c Hc.
    pose proof (Hbt n) as En; rewrite E in En; injection En as Ev El Er; subst v.
    pose proof (k_gvcb ncells vcells x gvcb H n) as Hg; cbn [bannotate flat preorder] in Hc; destruct Hc as [<-|Hc].
    - unfold context_at; cbn [context_cells c_ancestors c_children pos_above pos_here]; rewrite cnt_app, kv_list, kp, map_app, wsum_app; cbn [map]; rewrite wsum_cons, wsum_nil; unfold nval, nkids; lia.
    - assert (Hn : forall m u, (forall n p ab, bt n = u -> forall c, In c (preorder (flat (bannotate p ab u))) ->
          cnt x (context_cells vcells (pcells ncells) (Some (context_at gvcb c))) <= wsum (kv vcells x) (map (nval gvcb) ab) + kn ncells x n) ->
          bt m = u -> forall q, In c (preorder (flat (bannotate q (ab ++ [n]) u))) ->
          cnt x (context_cells vcells (pcells ncells) (Some (context_at gvcb c))) <= wsum (kv vcells x) (map (nval gvcb) ab) + (kv vcells x (fst (gvcb n)) + kn ncells x m)).
      { intros m u IH Em q Hq; specialize (IH m _ _ Em c Hq); rewrite map_app, wsum_app in IH; cbn [map] in IH; rewrite wsum_cons, wsum_nil in IH; unfold nval in *; lia. }
      apply in_flat_map in Hc as (t' & Ht' & Hc); apply in_app_iff in Ht' as [Hw|Hw].
      + destruct (fst (snd (gvcb n))) as [m|] eqn:Em; subst l; cbn [option_map In] in Hw; [|destruct Hw]; destruct Hw as [<-|[]].
        specialize (Hn m _ IHl eq_refl _ Hc); cbn [wo] in Hg; lia.
      + destruct (snd (snd (gvcb n))) as [m|] eqn:Em; subst r; cbn [option_map In] in Hw; [|destruct Hw]; destruct Hw as [<-|[]].
        specialize (Hn m _ IHr eq_refl _ Hc); cbn [wo] in Hg; lia.
  Qed.
End Binary.

(** What calls return, from what the iterator yields. *)
Lemma yielded_all {St A} (next : nat -> St -> Res (option A * St)) s l (P : option A -> Prop) : yields next s l -> P None -> (forall a, In a l -> P (Some a)) ->
  forall k os s', calls next k s ⇓ Ok (os, s') -> Forall P os.
Proof.
  intros Hy H0 Hl k os s' Hc; destruct (Hy k) as [s2 Hc2]; pose proof (conv_fun _ _ _ Hc Hc2) as E; injection E as -> _.
  apply Forall_forall; intros o Ho; apply in_map_iff in Ho as (i & <- & _); destruct (nth_error l i) eqn:E; [apply Hl, (nth_error_In _ _ E)|exact H0].
Qed.
