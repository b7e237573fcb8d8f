(** * ProofsSpaceColl: what the collection iterators keep

    An iterator over a collection holds the iterator of one of its trees; the bounds of ProofsSpace.v hold for that one.  Contexts
    and pipelines start each tree with the path [[index]], so that their paths are one longer. *)
From Verif Require Import Prelim PrelimFacts Spec SpecFacts SpecPipe ModelNode NodeFacts ModelPre ModelPost ModelIn ModelBfs ModelColl ModelPipe ModelPipeColl ModelSpace ProofsSpace.

Section Kept.
  Context {T S A : Type} (trees0 : list T) (I : T -> S -> Prop).
  Definition within (cur : option S) : Prop := forall it, cur = Some it -> exists t, In t trees0 /\ I t it.

  Lemma within_none : within None.
  Proof. discriminate. Qed.
  Lemma within_some t it : In t trees0 -> I t it -> within (Some it).
  Proof. intros Ht Hi it1 E; injection E as <-; eauto. Qed.

  Lemma coll_kept (new : T -> S) (next : nat -> S -> Res (option A * S)) :
    (forall t, I t (new t)) -> (forall t fuel s o s', I t s -> next fuel s = Ok (o, s') -> I t s') ->
    forall k s, after (coll_next new next) k (coll_new trees0) s -> within (co_cur s).
  Proof.
    intros Hnew Hnext k s Ha; pose (J := fun s : coll T S => incl (co_trees s) trees0 /\ within (co_cur s)).
    apply (after_inv _ J) in Ha; [apply Ha| |split; [apply incl_refl|apply within_none]].
    clear k s Ha; intros fuel s o s' Hs E; apply (loop_inv (coll_body new next) J (fun r => J (snd r))) in E; [exact E| |exact Hs].
    clear fuel s o s' Hs E; intros f [trees cur] (Hi & Hc); cbn [co_trees co_cur] in *.
    assert (Ht : match coll_next_tree (A := A) new trees with inl s' => J s' | inr r => J (snd r) end).
    { unfold coll_next_tree; destruct trees as [|t trees]; cbn [snd]; split; cbn [co_trees co_cur]; [exact Hi|apply within_none|intros x Hx; apply Hi; right; exact Hx|].
      apply (within_some t); [apply Hi; left; reflexivity|apply Hnew]. }
    unfold coll_body; cbn [co_cur co_trees]; destruct cur as [it|]; [|destruct (coll_next_tree new trees); exact Ht].
    destruct (next f it) as [[[v|] it1]| | |] eqn:E; cbn [bindR]; auto.
    destruct (Hc it eq_refl) as (t & H1 & H2); split; [exact Hi|apply (within_some t); [exact H1|eapply Hnext; eassumption]].
  Qed.

  Lemma collc_kept (new : T -> list N -> S) (next : nat -> S -> Res (option A * S)) get :
    (forall t i, I t (new t [i])) -> (forall t fuel s o s', I t s -> next fuel s = Ok (o, s') -> I t s') ->
    forall S0 k s0 s, coll_attach (coll_new (S := S0) trees0) = Ok s0 -> after (collc_next new next get) k s0 s -> within (cc_cur s).
  Proof.
    intros Hnew Hnext S0 k s0 s E0 Ha; injection E0 as <-; pose (J := fun s : collc T S => incl (cc_trees s) trees0 /\ within (cc_cur s)).
    apply (after_inv _ J) in Ha; [apply Ha| |split; [apply incl_refl|apply within_none]].
    clear k s Ha; intros fuel s o s' Hs E; unfold collc_next in E; apply bind_ok in E as (s1 & E & E1); injection E1 as _ <-.
    apply (loop_inv (collc_body new next) J J) in E; [exact E| |exact Hs].
    clear fuel s o s1 Hs E; intros f [trees i cur] (Hi & Hc); cbn [cc_trees cc_cur] in *.
    assert (Ht : forall cur, match collc_next_tree new (mkCollc trees i cur) with inl s' => J s' | inr s' => J s' end).
    { intros c1; unfold collc_next_tree; cbn [cc_trees cc_index]; destruct trees as [|t trees]; split; cbn [cc_trees cc_cur]; [exact Hi|apply within_none|intros x Hx; apply Hi; right; exact Hx|].
      apply (within_some t); [apply Hi; left; reflexivity|apply Hnew]. }
    unfold collc_body; cbn [cc_cur cc_trees cc_index]; destruct cur as [it|]; [|specialize (Ht None); destruct (collc_next_tree new _); exact Ht].
    destruct (next f it) as [[[v|] it1]| | |] eqn:E; cbn [bindR]; auto; [|specialize (Ht (Some it1)); destruct (collc_next_tree new _); exact Ht].
    destruct (Hc it eq_refl) as (t & H1 & H2); split; [exact Hi|apply (within_some t); [exact H1|eapply Hnext; eassumption]].
  Qed.
End Kept.

Lemma within_weaken {T S} (trees : list T) (I J : T -> S -> Prop) cur : (forall t s, I t s -> J t s) -> within trees I cur ->
  forall it, cur = Some it -> exists t, In t trees /\ J t it.
Proof. intros HIJ Hw it E; destruct (Hw it E) as (t & H1 & H2); eauto. Qed.

Section Nary.
  Context {Nd V : Type} (gvc : Nd -> V * list Nd) (nt : Nd -> tree Nd) (Hnt : node_tree gvc nt) (trees : list Nd).
  Notation h := (fun n => height (nt n)).
  Let Hpos : forall n, 1 <= h n := fun n => height_pos (nt n).

  Lemma pre_each_space k s : after (pre_each_next gvc) k (coll_new trees) s ->
    forall it, co_cur s = Some it -> exists n, In n trees /\ length (pre_stack it) <= h n.
  Proof.
    intros Ha; apply (coll_kept trees (fun n => pre_inv nt n)) in Ha; [|split; reflexivity|intros n; exact (pre_step gvc nt Hnt n)].
    revert Ha; apply within_weaken; intros n it Hi; unfold pre_inv in Hi; destruct (pre_root it); [destruct Hi as (_ & ->); cbn; lia|eapply fits_length; exact Hi].
  Qed.
  Lemma post_each_space k s : after (post_each_next gvc) k (coll_new trees) s ->
    forall it, co_cur s = Some it -> exists n, In n trees /\ length (po_stack it) <= h n /\ length (po_items it) <= h n.
  Proof.
    intros Ha; apply (coll_kept trees (fun n => post_inv nt n 0)) in Ha; [|repeat split; reflexivity|intros n; exact (post_step gvc nt Hnt n)].
    revert Ha; apply within_weaken; intros n it Hi; unfold post_inv in Hi; destruct (po_root it); [destruct Hi as (_ & -> & ->); cbn; lia|].
    destruct Hi as (Hf & Hi); apply fits_length in Hf; lia.
  Qed.
  Lemma bfs_each_space k s : after (bfs_each_next gvc) k (coll_new trees) s ->
    forall it, co_cur s = Some it -> exists n, In n trees /\ two_levels (nt n) (length (bfs_queue it)).
  Proof.
    intros Ha; apply (coll_kept trees (fun n => bfs_inv gvc nt n)) in Ha; [|split; reflexivity|intros n; exact (bfs_step gvc nt Hnt n)].
    revert Ha; apply within_weaken; intros n it Hi; unfold bfs_inv in Hi; destruct (bfs_root it); [destruct Hi as (_ & ->)|eapply queued_bound; exact Hi]; exists 0; cbn; lia.
  Qed.
  Lemma prec_each_space S0 k s0 s : coll_attach (coll_new (S := S0) trees) = Ok s0 -> after (prec_each_next gvc) k s0 s ->
    forall it, cc_cur s = Some it -> exists n, In n trees /\ length (pc_stack it) <= h n /\ length (pc_path it) <= 1 + h n /\ length (pc_anc it) <= h n.
  Proof.
    intros E Ha; eapply (collc_kept trees (fun n => prec_inv gvc h h n 1)) in Ha; [|intros n i; repeat split; cbn; lia|intros n; exact (prec_keeps gvc nt Hnt n 1)|exact E].
    revert Ha; apply within_weaken; intros n it Hi; apply prec_bounds in Hi; [exact Hi|exact Hpos].
  Qed.
  Lemma postco_each_space S0 k s0 s : coll_attach (coll_new (S := S0) trees) = Ok s0 -> after (postco_each_next gvc) k s0 s ->
    forall it, cc_cur s = Some it -> exists n, In n trees /\ length (pto_stack it) <= h n /\ length (pto_path it) <= 1 + h n /\ length (pto_anc it) <= h n.
  Proof.
    intros E Ha; eapply (collc_kept trees (fun n => postco_inv h h n 1)) in Ha; [|intros n i; repeat split; cbn; lia|intros n; exact (postco_keeps gvc nt Hnt n 1)|exact E].
    revert Ha; apply within_weaken; intros n it Hi; apply postco_bounds in Hi; exact Hi.
  Qed.
  Lemma postc_each_space S0 k s0 s : coll_attach (coll_new (S := S0) trees) = Ok s0 -> after (postc_each_next gvc) k s0 s ->
    forall it, cc_cur s = Some it -> exists n, In n trees /\ length (ModelPost.pt_stack it) <= h n /\ length (pt_conts it) <= h n /\
      length (ModelPost.pt_path it) <= 1 + h n /\ length (pt_anc it) <= h n.
  Proof.
    intros E Ha; eapply (collc_kept trees (fun n => postc_inv h h n 1)) in Ha; [|intros n i; repeat split; cbn; lia|intros n; exact (postc_keeps gvc nt Hnt n 1)|exact E].
    revert Ha; apply within_weaken; intros n it Hi; apply postc_bounds in Hi; exact Hi.
  Qed.
  Lemma bfsc_each_space S0 k s0 s : coll_attach (coll_new (S := S0) trees) = Ok s0 -> after (bfsc_each_next gvc) k s0 s ->
    forall it, cc_cur s = Some it -> exists n, In n trees /\ two_levels (nt n) (length (bc_queue it)).
  Proof.
    intros E Ha; eapply (collc_kept trees (fun n => bc_inv gvc (fun l => l) (fun n => [n]) (nt n))) in Ha; [| |intros n; exact (bfsc_keeps gvc nt Hnt n)|exact E].
    - revert Ha; apply within_weaken; intros n it Hi; apply bc_bound in Hi; exact Hi.
    - intros n i; unfold bfsc_start; destruct (gvc n) as [v c] eqn:Eg; apply (bfsc_begins gvc nt Hnt n v c [i] Eg).
  Qed.
End Nary.

Section Binary.
  Context {Nd V : Type} (gvcb : Nd -> V * (option Nd * option Nd)) (bt : Nd -> btree Nd) (Hbt : node_btree gvcb bt) (trees : list Nd).
  Notation h := (fun n => height (flat (bt n))).
  Let Hpos : forall n, 1 <= h n := fun n => height_pos (flat (bt n)).

  Lemma in_each_space k s : after (in_each_next gvcb) k (coll_new trees) s ->
    forall it, co_cur s = Some it -> exists n, In n trees /\ length (in_right it) <= h n /\ length (in_items it) <= h n.
  Proof.
    intros Ha; apply (coll_kept trees (fun n => in_inv bt n)) in Ha; [| |intros n; exact (in_step gvcb bt Hbt n)].
    - revert Ha; apply within_weaken; intros n it (A & B); apply rfits_length in A; lia.
    - intros n; split; cbn [in_new in_right in_items rfits length oheight]; [|lia]; pose proof (Hpos n) as Hn; cbv beta in Hn; repeat split; lia.
  Qed.
  Lemma inc_each_space S0 k s0 s : coll_attach (coll_new (S := S0) trees) = Ok s0 -> after (inc_each_next gvcb) k s0 s ->
    forall it, cc_cur s = Some it -> exists n, In n trees /\ length (ic_right it) <= h n /\ length (ic_path it) <= 1 + h n /\
      length (ic_anc it) <= h n /\ length (ic_conts it) <= h n /\ length (ic_status it) <= h n.
  Proof.
    intros E Ha; eapply (collc_kept trees (fun n => inc_inv bt n 1)) in Ha; [|intros n i; apply inc_start; cbn; lia|intros n; exact (inc_step gvcb bt Hbt n 1)|exact E].
    revert Ha; apply within_weaken; intros n it Hi; apply inc_bounds in Hi; exact Hi.
  Qed.
  Lemma inco_each_space S0 k s0 s : coll_attach (coll_new (S := S0) trees) = Ok s0 -> after (inco_each_next gvcb) k s0 s ->
    forall it, cc_cur s = Some it -> exists n, In n trees /\ length (io_right it) <= h n /\ length (io_path it) <= 1 + h n /\
      length (io_anc it) <= h n /\ length (io_status it) <= h n.
  Proof.
    intros E Ha; eapply (collc_kept trees (fun n => inco_inv bt n 1)) in Ha; [|intros n i; apply inco_start; cbn; lia|intros n; exact (inco_step gvcb bt Hbt n 1)|exact E].
    revert Ha; apply within_weaken; intros n it Hi; apply inco_bounds in Hi; exact Hi.
  Qed.
  Lemma precb_each_space S0 k s0 s : coll_attach (coll_new (S := S0) trees) = Ok s0 -> after (precb_each_next gvcb) k s0 s ->
    forall it, cc_cur s = Some it -> exists n, In n trees /\ length (pc_stack it) <= h n /\ length (pc_path it) <= 1 + h n /\ length (pc_anc it) <= h n.
  Proof.
    intros E Ha; eapply (collc_kept trees (fun n => prec_inv gvcb h (oheight bt) n 1)) in Ha; [|intros n i; repeat split; cbn; lia|intros n; exact (precb_keeps gvcb bt Hbt n 1)|exact E].
    revert Ha; apply within_weaken; intros n it Hi; apply prec_bounds in Hi; [exact Hi|exact Hpos].
  Qed.
  Lemma postcob_each_space S0 k s0 s : coll_attach (coll_new (S := S0) trees) = Ok s0 -> after (postcob_each_next gvcb) k s0 s ->
    forall it, cc_cur s = Some it -> exists n, In n trees /\ length (pto_stack it) <= h n /\ length (pto_path it) <= 1 + h n /\ length (pto_anc it) <= h n.
  Proof.
    intros E Ha; eapply (collc_kept trees (fun n => postco_inv h (oheight bt) n 1)) in Ha; [|intros n i; repeat split; cbn; lia|intros n; exact (postcob_keeps gvcb bt Hbt n 1)|exact E].
    revert Ha; apply within_weaken; intros n it Hi; apply postco_bounds in Hi; exact Hi.
  Qed.
  Lemma postcb_each_space S0 k s0 s : coll_attach (coll_new (S := S0) trees) = Ok s0 -> after (postcb_each_next gvcb) k s0 s ->
    forall it, cc_cur s = Some it -> exists n, In n trees /\ length (ModelPost.pt_stack it) <= h n /\ length (pt_conts it) <= h n /\
      length (ModelPost.pt_path it) <= 1 + h n /\ length (pt_anc it) <= h n.
  Proof.
    intros E Ha; eapply (collc_kept trees (fun n => postc_inv h (oheight bt) n 1)) in Ha; [|intros n i; repeat split; cbn; lia|intros n; exact (postcb_keeps gvcb bt Hbt n 1)|exact E].
    revert Ha; apply within_weaken; intros n it Hi; apply postc_bounds in Hi; exact Hi.
  Qed.
  Lemma bfscb_each_space S0 k s0 s : coll_attach (coll_new (S := S0) trees) = Ok s0 -> after (bfscb_each_next gvcb) k s0 s ->
    forall it, cc_cur s = Some it -> exists n, In n trees /\ two_levels (flat (bt n)) (length (bc_queue it)).
  Proof.
    intros E Ha; eapply (collc_kept trees (fun n => bc_inv gvcb pair_iter opt_list (flat (bt n)))) in Ha; [| |intros n; exact (bfscb_keeps gvcb bt Hbt n)|exact E].
    - revert Ha; apply within_weaken; intros n it Hi; apply bc_bound in Hi; exact Hi.
    - intros n i; unfold bfsc_start; destruct (gvcb n) as [v c] eqn:Eg; apply (bfscb_begins gvcb bt Hbt n v c [i] Eg).
  Qed.
End Binary.

(** ** Pipelines *)
Section Pipelines.
  Context {Nd V I C : Type} (next : nat -> ptrack Nd I C -> Res (option V * ptrack Nd I C)) (inv : Nd -> ptrack Nd I C -> Prop) (trees0 : list Nd) (H : nat).
  Hypothesis Hstart : forall n i, inv n (pt_new n [i]).
  Hypothesis Hnext : forall n fuel s o s', inv n s -> next fuel s = Ok (o, s') -> inv n s'.
  Hypothesis Hprune : forall n s, inv n s -> inv n (pt_prune s).
  Hypothesis Hbound : forall n s, In n trees0 -> inv n s -> length (pt_path s) <= H /\ length (pt_stack s) <= H.

  Definition ct_inv (s : ctrack Nd I C) : Prop := incl (ct_trees s) trees0 /\ within trees0 inv (ct_cur s).
  Lemma ct_step fuel s o s' : ct_inv s -> ct_next next fuel s = Ok (o, s') -> ct_inv s'.
  Proof.
    intros Hs E; apply (loop_inv (ct_body next) ct_inv (fun r => ct_inv (snd r))) in E; [exact E| |exact Hs].
    clear -Hstart Hnext; intros f [trees i cur] (Hi & Hc); cbn [ct_trees ct_cur] in *.
    assert (Ht : forall cur, within trees0 inv cur -> match ct_take (V := V) trees i cur with Ok (inl s') => ct_inv s' | Ok (inr r) => ct_inv (snd r) | _ => True end).
    { intros c1 Hc1; unfold ct_take; destruct trees as [|t trees]; [split; [exact Hi|exact Hc1]|].
      destruct (checked_succ i) as [i'| | |]; cbn [bindR]; auto; split; cbn [ct_trees ct_cur]; [intros x Hx; apply Hi; right; exact Hx|].
      apply (within_some _ _ t); [apply Hi; left; reflexivity|apply Hstart]. }
    unfold ct_body; cbn [ct_cur ct_trees ct_count]; destruct cur as [it|]; [|exact (Ht None (within_none _ _))].
    destruct (next f it) as [[o it1]| | |] eqn:E; cbn [bindR]; auto; destruct (Hc it eq_refl) as (t & H1 & H2).
    assert (Hw : within trees0 inv (Some it1)) by (apply (within_some _ _ t); [exact H1|eapply Hnext; eassumption]).
    destruct o as [v|]; [split; [exact Hi|exact Hw]|exact (Ht _ Hw)].
  Qed.
  Lemma ct_kept : kept H (mkPipe (ctrack Nd I C) (ct_new trees0) (ct_next next) ct_path ct_prune) ct_inv
    (fun s => match ct_cur s with Some it => start_held it | None => [] end).
  Proof.
    split; [|split; [|split; [|split]]]; cbn [p_init p_next p_prune p_path p_state].
    - split; [apply incl_refl|apply within_none].
    - exact ct_step.
    - intros [trees i [it|]] (Hi & Hc); (split; [exact Hi|]); cbn [ct_prune ct_cur] in *; [|apply within_none].
      destruct (Hc it eq_refl) as (t & H1 & H2); apply (within_some _ _ t); [exact H1|apply Hprune; exact H2].
    - intros [trees i [it|]] (Hi & Hc); unfold ct_path; cbn [ct_cur] in *; [|cbn; lia].
      destruct (Hc it eq_refl) as (t & H1 & H2); unfold pt_current_path; rewrite rev_length; eapply Hbound; eassumption.
    - intros [trees i [it|]] (Hi & Hc); cbn [ct_cur] in *; [|constructor].
      destruct (Hc it eq_refl) as (t & H1 & H2); destruct (Hbound t it H1 H2); repeat constructor; assumption.
  Qed.
End Pipelines.

(** The vectors of the path-tracking iterator of the tree at hand. *)
Lemma each_chain_space {Nd V A} (gvc : Nd -> V * list Nd) nt (Hnt : node_tree gvc nt) trees H (c : chain V A) k s :
  1 <= H -> (forall n, In n trees -> height (nt n) < H) ->
  after (p_next (each_chain (into_pipeline_each gvc trees) c)) k (p_init (each_chain (into_pipeline_each gvc trees) c)) s ->
  Forall (fun x => x <= H) (held coll_depth [0%N] (into_pipeline_each gvc trees) each_held c s).
Proof.
  intros H1 Hh; pose (h := fun n => height (nt n)).
  assert (HK : kept H (into_pipeline_each gvc trees) (ct_inv (fun n => pt_inv gvc h h n 1) trees) each_held).
  { refine (ct_kept (pt_next gvc) _ trees H _ _ _ _).
    - intros n i; apply pt_start; cbn; lia.
    - intros n; exact (pt_step gvc (fun l => l) h h n 1 (fun n => height_pos (nt n)) (kids_lower gvc nt Hnt) pt_body (pt_body_facts gvc h)).
    - intros n; apply pt_pruned.
    - intros n s1 Hin Hi; specialize (Hh n Hin); apply pt_bounds in Hi; unfold h in Hi; lia. }
  destruct (kept_chain _ _ _ _ coll_depth [0%N] H1 HK A c) as (Jc & Hc); exact (kept_small _ _ Jc _ Hc k s).
Qed.
Lemma each_bchain_space {Nd V A} (gvcb : Nd -> V * (option Nd * option Nd)) bt (Hbt : node_btree gvcb bt) trees H (c : chain V A) k s :
  (forall n, In n trees -> height (flat (bt n)) < H) ->
  after (p_next (each_chain_binary (into_pipeline_each_binary gvcb trees) c)) k (p_init (each_chain_binary (into_pipeline_each_binary gvcb trees) c)) s ->
  Forall (fun x => x <= H) (held_binary coll_depth (into_pipeline_each_binary gvcb trees) each_held c s).
Proof.
  intros Hh; pose (h := fun n => height (flat (bt n))).
  assert (HK : kept H (into_pipeline_each_binary gvcb trees) (ct_inv (fun n => pt_inv gvcb h (oheight bt) n 1) trees) each_held).
  { refine (ct_kept (ptb_next gvcb) _ trees H _ _ _ _).
    - intros n i; apply pt_start; cbn; lia.
    - intros n; exact (pt_step gvcb pair_iter h (oheight bt) n 1 (fun n => height_pos (flat (bt n))) (sides_kids gvcb bt Hbt) ptb_body (ptb_body_facts gvcb bt)).
    - intros n; apply pt_pruned.
    - intros n s1 Hin Hi; specialize (Hh n Hin); apply pt_bounds in Hi; unfold h in Hi; lia. }
  destruct (kept_chain_binary _ _ _ _ coll_depth HK A c) as (Jc & Hc); exact (kept_small _ _ Jc _ Hc k s).
Qed.
