(** * Names used in proofs for the parts of a node. *)
From Verif Require Import Prelim Spec SpecFacts ModelNode.
From Verif Require Export SpecObs.

Definition nleft {Nd V} (gvcb : Nd -> V * (option Nd * option Nd)) (n : Nd) : option Nd := fst (snd (gvcb n)).
Definition nright {Nd V} (gvcb : Nd -> V * (option Nd * option Nd)) (n : Nd) : option Nd := snd (snd (gvcb n)).
Arguments nleft : simpl never.
Arguments nright : simpl never.

Lemma gv_eq {Nd V C} (gv : Nd -> V * C) n : gv n = (nval gv n, nkids gv n).
Proof. unfold nval, nkids; destruct (gv n); reflexivity. Qed.

Lemma gvcb_eq {Nd V} (gvcb : Nd -> V * (option Nd * option Nd)) n :
  gvcb n = (nval gvcb n, (nleft gvcb n, nright gvcb n)).
Proof. unfold nval, nleft, nright; destruct (gvcb n) as [? [? ?]]; reflexivity. Qed.

Lemma nkids_pair {Nd V} (gvcb : Nd -> V * (option Nd * option Nd)) n :
  nkids gvcb n = (nleft gvcb n, nright gvcb n).
Proof. unfold nkids, nleft, nright; destruct (gvcb n) as [? [? ?]]; reflexivity. Qed.

Lemma nval_binary {Nd V} (gvcb : Nd -> V * (option Nd * option Nd)) n :
  nval (binary_gvc gvcb) n = nval gvcb n.
Proof. unfold nval, binary_gvc; destruct (gvcb n); reflexivity. Qed.

Lemma nkids_binary {Nd V} (gvcb : Nd -> V * (option Nd * option Nd)) n :
  nkids (binary_gvc gvcb) n = opt_list (nleft gvcb n) ++ opt_list (nright gvcb n).
Proof.
  unfold nkids, nleft, nright, binary_gvc; destruct (gvcb n) as [? [? ?]]; cbn; rewrite app_nil_r; reflexivity.
Qed.

Lemma node_binary {Nd V} (gvcb : Nd -> V * (option Nd * option Nd)) bt :
  node_btree gvcb bt -> node_tree (binary_gvc gvcb) (fun n => flat (bt n)).
Proof.
  intros H n; rewrite H; unfold binary_gvc; destruct (gvcb n) as [v [l r]]; cbn.
  destruct l, r; reflexivity.
Qed.

Lemma node_tree_tree {A} : node_tree (@tree_gvc A) subtrees.
Proof. intros [v ts]; reflexivity. Qed.

Lemma node_btree_btree {A} : node_btree (@btree_gvcb A) bsubtrees.
Proof. intros [v l r]; reflexivity. Qed.

Section Trees.
  Context {Nd V : Type} (gvc : Nd -> V * list Nd) (nt : Nd -> tree Nd).
  Hypothesis Hnt : node_tree gvc nt.
  Lemma nt_unfold n : nt n = TNode n (map nt (nkids gvc n)).
  Proof. apply Hnt. Qed.
  Lemma nt_root n : root (nt n) = n.
  Proof. rewrite nt_unfold; reflexivity. Qed.
  (** Induction over the nodes. *)
  Lemma node_ind (P : Nd -> Prop) : (forall n, Forall P (nkids gvc n) -> P n) -> forall n, P n.
  Proof.
    intros H n; remember (nt n) as t eqn:Et; revert n Et.
    induction t as [v ts IH] using tree_ind'; intros n Et.
    apply H; rewrite nt_unfold in Et; injection Et as -> ->.
    induction (nkids gvc n) as [|c cs IHc]; constructor; inversion IH; subst; auto.
  Qed.
End Trees.

Section Btrees.
  Context {Nd V : Type} (gvcb : Nd -> V * (option Nd * option Nd)) (bt : Nd -> btree Nd).
  Hypothesis Hbt : node_btree gvcb bt.
  Lemma bt_unfold n : bt n = BNode n (option_map bt (nleft gvcb n)) (option_map bt (nright gvcb n)).
  Proof. apply Hbt. Qed.
  Lemma bnode_ind (P : Nd -> Prop) :
    (forall n, OForall P (nleft gvcb n) -> OForall P (nright gvcb n) -> P n) -> forall n, P n.
  Proof.
    intros H n; remember (bt n) as t eqn:Et; revert n Et.
    induction t as [v l r IHl IHr] using btree_ind'; intros n Et.
    rewrite bt_unfold in Et; injection Et as -> -> ->.
    apply H; [destruct (nleft gvcb n)|destruct (nright gvcb n)]; cbn in *; auto.
  Qed.
End Btrees.
