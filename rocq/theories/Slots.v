(** * A common view of n-ary and binary nodes: numbered slots, some of them empty.

    Used in proofs only, so that each context iterator is proved once. *)
From Verif Require Import Prelim PrelimFacts Spec SpecFacts ModelNode NodeFacts.

(** The part of the tree of positions below a node whose path is [p] and whose
    ancestors (itself included) are [ab], for the slots from number [i] on. *)
Fixpoint sforest {Nd} (T : list nat -> list Nd -> Nd -> tree (pos Nd))
    (p : list nat) (ab : list Nd) (i : nat) (l : list (option Nd)) : list (tree (pos Nd)) :=
  match l with
  | [] => []
  | Some c :: l' => T (p ++ [i]) ab c :: sforest T p ab (S i) l'
  | None :: l' => sforest T p ab (S i) l'
  end.

(** [T p ab n]: the tree of positions of the nodes below [n], when [n] has path [p] and strict ancestors [ab]. *)
Definition slot_law {Nd} (slots : Nd -> list (option Nd)) (T : list nat -> list Nd -> Nd -> tree (pos Nd)) : Prop :=
  forall p ab n, T p ab n = TNode (mkPos p ab n) (sforest T p (ab ++ [n]) 0 (slots n)).

Lemma sforest_map_Some {Nd} T p (ab : list Nd) i l :
  sforest T p ab i (map Some l) = mapi (fun j c => T (p ++ [j]) ab c) i l.
Proof. revert i; induction l as [|c l IH]; intros i; cbn; [reflexivity|rewrite IH; reflexivity]. Qed.

Lemma slot_law_nary {Nd V} (gvc : Nd -> V * list Nd) nt :
  node_tree gvc nt -> slot_law (fun n => map Some (nkids gvc n)) (fun p ab n => annotate p ab (nt n)).
Proof.
  intros H p ab n; rewrite (nt_unfold _ _ H n); cbn [annotate]; f_equal.
  rewrite sforest_map_Some, mapi_map; reflexivity.
Qed.

Lemma slot_law_binary {Nd V} (gvcb : Nd -> V * (option Nd * option Nd)) bt :
  node_btree gvcb bt -> slot_law (fun n => pair_iter (nkids gvcb n)) (fun p ab n => flat (bannotate p ab (bt n))).
Proof.
  intros H p ab n; rewrite (bt_unfold _ _ H n), nkids_pair; cbn.
  destruct (nleft gvcb n), (nright gvcb n); reflexivity.
Qed.

(** Every node at or below [n] has at most [usize::MAX] slots. *)
Definition small_law {Nd} (slots : Nd -> list (option Nd)) (ok : Nd -> Prop) : Prop :=
  forall n, ok n -> (N.of_nat (length (slots n)) <= usize_max)%N /\ forall c, In (Some c) (slots n) -> ok c.

Lemma small_law_binary {Nd V} (gvcb : Nd -> V * (option Nd * option Nd)) :
  small_law (fun n => pair_iter (nkids gvcb n)) (fun _ => True).
Proof. intros n _; split; [cbn; unfold usize_max; lia|auto]. Qed.

Lemma small_law_nary {Nd V} (gvc : Nd -> V * list Nd) nt : node_tree gvc nt ->
  small_law (fun n => map Some (nkids gvc n))
    (fun n => small_nodes gvc (nt n)).
Proof.
  unfold small_nodes; intros H n Hn; rewrite (nt_unfold _ _ H n) in Hn; cbn in Hn.
  inversion Hn as [|? ? Hn1 Hn2]; subst; split.
  - rewrite map_length; exact Hn1.
  - intros c Hc; apply in_map_iff in Hc as (c' & E & Hc); injection E as ->.
    rewrite Forall_forall in Hn2 |- *; intros x Hx; apply Hn2.
    apply in_flat_map; exists (nt c); split; [apply in_map; exact Hc|exact Hx].
Qed.

Lemma slot_ind {Nd} (slots : Nd -> list (option Nd)) T : slot_law slots T ->
  forall P : Nd -> Prop, (forall n, (forall c, In (Some c) (slots n) -> P c) -> P n) -> forall n, P n.
Proof.
  intros HT P HP n.
  remember (T [] [] n) as t eqn:Et; generalize dependent n.
  generalize (@nil nat) as p, (@nil Nd) as ab.
  induction t as [v ts IH] using tree_ind'; intros p ab n Et.
  apply HP; intros c Hc.
  rewrite HT in Et; injection Et as _ Et.
  assert (HH : exists q ab', In (T q ab' c) ts).
  { subst ts; clear -Hc; generalize 0 as i; induction (slots n) as [|o l IHl]; intros i; [destruct Hc|].
    destruct Hc as [->|Hc].
    - cbn; eexists _, _; left; reflexivity.
    - destruct (IHl Hc (S i)) as (q & ab' & Hin).
      exists q, ab'; destruct o; cbn; auto. }
  destruct HH as (q & ab' & Hin).
  rewrite Forall_forall in IH; eapply (IH _ Hin); reflexivity.
Qed.

(** The encoding of "the next slot has number j" in the last path segment. *)
Definition enc (j : nat) : N := match j with 0 => usize_max | S i => N.of_nat i end.

Lemma enc_succ j : (N.of_nat j <= usize_max)%N -> wrapping_succ (enc j) = N.of_nat j.
Proof.
  intros H; destruct j as [|i]; [reflexivity|].
  cbn [enc]; rewrite wrapping_succ_lt by lia; lia.
Qed.

(** ** Frames: open nodes, each with its remaining slots and the number of the next one *)
Section Frames.
  Context {Nd : Type}.
  Record frame := mkFrame { f_slots : list (option Nd); f_next : nat; f_node : Nd }.
  Variable P0 : list nat. (* path of the root *)

  (** The path of the node last entered from the top frame (last segment first). *)
  Fixpoint fpath (fs : list frame) : list nat :=
    match fs with [] => rev P0 | f :: fs' => pred (f_next f) :: fpath fs' end.
  Definition fanc (fs : list frame) : list Nd := map f_node fs.

  (** The path vector while the slots of the top frame are searched (last segment first). *)
  Definition spath (fs : list frame) : list N :=
    match fs with [] => map N.of_nat (rev P0) | f :: fs' => enc (f_next f) :: map N.of_nat (fpath fs') end.

  Lemma spath_entered fs : (forall f fs', fs = f :: fs' -> 0 < f_next f) -> map N.of_nat (fpath fs) = spath fs.
  Proof.
    destruct fs as [|f fs']; intros H; [reflexivity|].
    specialize (H f fs' eq_refl); cbn; destruct (f_next f); [lia|reflexivity].
  Qed.

  Variable slots : Nd -> list (option Nd).
  Variable ok : Nd -> Prop.
  Definition frame_ok (f : frame) : Prop :=
    (forall c, In (Some c) (f_slots f) -> ok c) /\
    (N.of_nat (f_next f + length (f_slots f)) <= usize_max)%N.
  (** Frames all of which have been entered. *)
  Definition frames_ok (fs : list frame) : Prop := Forall (fun f => frame_ok f /\ 0 < f_next f) fs.

  Lemma frame_ok_new n : small_law slots ok -> ok n -> frame_ok (mkFrame (slots n) 0 n).
  Proof. intros H Hn; destruct (H n Hn); split; assumption. Qed.

  Lemma frame_ok_next o l j n : frame_ok (mkFrame (o :: l) j n) -> frame_ok (mkFrame l (S j) n).
  Proof.
    intros [H1 H2]; split; cbn in *; [intros c Hc; apply H1; right; exact Hc|lia].
  Qed.

  Lemma entered_spath fs : frames_ok fs -> map N.of_nat (fpath fs) = spath fs.
  Proof.
    intros H; apply spath_entered; intros f fs' ->; inversion H as [|? ? [_ ?] ?]; assumption.
  Qed.
End Frames.
Arguments frame : clear implicits.
Arguments mkFrame {Nd} _ _ _.
