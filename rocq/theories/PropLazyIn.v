(** * C51, C52 in inorder: binary trees that are made while they are traversed

    [gvcb] gives the value and the two children of a node.  Nothing is assumed about it, so the tree may have no bottom.
    [bcut gvcb d n] is the tree hanging from [n] with all below depth [d] cut off, and [bwhole gvcb n t] says that it is finite and is [t] (SpecLazy). *)
From Coq Require Import Permutation.
From Verif Require Import Prelim PrelimFacts Spec SpecObs SpecEdit SpecLazy ModelNode ModelIn ModelLazyIn.
From Verif Require SpecFacts.
From Verif Require Import ProofsLazyDeep ProofsLazyIn ProofsLazyInRun.

Section LazyIn.
  Context {Nd V : Type}.
  Variable gvcb : Nd -> V * (option Nd * option Nd).
  Local Notation answers k l := (map (nth_error l) (seq 0 k)).

  (** C51.  In inorder the first [k] calls of [next()] come back as soon as the tree is finite where they look: the first [k] nodes in inorder of some
      finite cut are above the cut.  They give what they would give on the tree cut off there. *)
  Theorem C51_inorder : forall (n : Nd) (k d : nat),
    Forall (fun p => length (pos_path p) < d) (firstn k (inorder (bpositions (bcut gvcb d n)))) ->
    (exists s, calls (lin_next gvcb) k (lin_new n) ⇓ Ok (answers k (map (nval gvcb) (inorder (bcut gvcb d n))), s)) /\
    (exists s, calls (lina_next gvcb) k (lina_new n) ⇓ Ok (answers k (map (ancestors_at gvcb) (inorder (bpositions (bcut gvcb d n)))), s)) /\
    (exists s, calls (linc_next gvcb) k (linc_new n []) ⇓ Ok (answers k (map (context_at gvcb) (inorder (bpositions (bcut gvcb d n)))), s)) /\
    (exists s, calls (linco_next gvcb) k (linco_new n []) ⇓
       Ok (answers k (map (fun p => no_children (context_at gvcb p)) (inorder (bpositions (bcut gvcb d n)))), s)).
  Proof.
    intros n k d Hc; pose proof (in_cut gvcb k d n Hc) as Hh; pose proof (in_cut_part gvcb d n) as Hb; pose proof (broot_of_bcut gvcb d n) as Hr.
    split; [|split; [|split]].
    - destruct (run_in gvcb _ k Hb Hh) as (s & H & _); rewrite Hr in H; eauto.
    - destruct (run_ina gvcb _ k Hb Hh) as (s & H & _); rewrite Hr in H; eauto.
    - destruct (run_inc gvcb _ k Hb Hh) as (s & H & _); rewrite Hr in H; eauto.
    - destruct (run_inco gvcb _ k Hb Hh) as (s & H & _); rewrite Hr in H; eauto.
  Qed.

  (** C51.  When the tree is finite, every inorder iterator gives all of it. *)
  Theorem C51_inorder_whole : forall (n : Nd) (t : btree Nd), bwhole gvcb n t ->
    yields (lin_next gvcb) (lin_new n) (map (nval gvcb) (inorder t)) /\
    yields (lina_next gvcb) (lina_new n) (map (ancestors_at gvcb) (inorder (bpositions t))) /\
    yields (linc_next gvcb) (linc_new n []) (map (context_at gvcb) (inorder (bpositions t))) /\
    yields (linco_next gvcb) (linco_new n []) (map (fun p => no_children (context_at gvcb p)) (inorder (bpositions t))).
  Proof.
    intros n t Hw; destruct (bwhole_part gvcb t n Hw) as (<- & Hb & Ha); pose proof (fun k => hold_all k _ Ha) as Hh.
    split; [|split; [|split]]; intros k.
    - destruct (run_in gvcb _ k Hb (Hh k)) as (s & H & _); eauto.
    - destruct (run_ina gvcb _ k Hb (Hh k)) as (s & H & _); eauto.
    - destruct (run_inc gvcb _ k Hb (Hh k)) as (s & H & _); eauto.
    - destruct (run_inco gvcb _ k Hb (Hh k)) as (s & H & _); eauto.
  Qed.

  (** C51.  An inorder iterator must get to the bottom of the left side before it can give anything: when that never ends, the first call of [next()] does not
      come back. *)
  Theorem C51_inorder_endless : forall path : nat -> Nd, (forall i, fst (snd (gvcb (path i))) = Some (path (S i))) ->
    (forall fuel, lin_next gvcb fuel (lin_new (path 0)) = OutOfFuel) /\
    (forall fuel, lina_next gvcb fuel (lina_new (path 0)) = OutOfFuel) /\
    (forall fuel, linc_next gvcb fuel (linc_new (path 0) []) = OutOfFuel) /\
    (forall fuel, linco_next gvcb fuel (linco_new (path 0) []) = OutOfFuel).
  Proof.
    intros path Hp; split; [|split; [|split]]; intros F.
    - apply (endless_in gvcb path Hp).
    - apply (endless_ina gvcb path Hp).
    - apply (endless_inc gvcb path Hp).
    - apply (endless_inco gvcb path Hp).
  Qed.

  Lemma after_run {S O} (next : nat -> S -> Res (O * S)) k s0 s (P : S -> Prop) os : after next k s0 s ->
    (exists s', calls next k s0 ⇓ Ok (os, s') /\ P s') -> P s.
  Proof. intros [os' H] (s' & H' & HP); pose proof (conv_fun _ _ _ H H') as E; injection E as _ <-; exact HP. Qed.

  (** C52.  After [k] calls of [next()], an inorder iterator has called [get_value_and_children] once on each node that it has returned, once on each ancestor
      of the last one whose turn comes later (those in whose left subtree it is), and on no other node.  The log is the first part of a state. *)
  Theorem C52_inorder : forall (n : Nd) (k d : nat),
    Forall (fun p => length (pos_path p) < d) (firstn k (inorder (bpositions (bcut gvcb d n)))) ->
    (forall s, after (lin_next gvcb) k (lin_new n) s -> Permutation (fst s) (entered_inorder k (inorder (bpositions (bcut gvcb d n))))) /\
    (forall s, after (lina_next gvcb) k (lina_new n) s -> Permutation (fst s) (entered_inorder k (inorder (bpositions (bcut gvcb d n))))) /\
    (forall s, after (linc_next gvcb) k (linc_new n []) s -> Permutation (fst s) (entered_inorder k (inorder (bpositions (bcut gvcb d n))))) /\
    (forall s, after (linco_next gvcb) k (linco_new n []) s -> Permutation (fst s) (entered_inorder k (inorder (bpositions (bcut gvcb d n))))).
  Proof.
    intros n k d Hc; pose proof (in_cut gvcb k d n Hc) as Hh; pose proof (in_cut_part gvcb d n) as Hb; pose proof (broot_of_bcut gvcb d n) as Hr.
    split; [|split; [|split]]; intros s Ha; pattern s; refine (after_run _ _ _ _ _ _ Ha _); clear s Ha; cbv beta.
    - pose proof (run_in gvcb _ k Hb Hh) as H; rewrite Hr in H; exact H.
    - pose proof (run_ina gvcb _ k Hb Hh) as H; rewrite Hr in H; exact H.
    - pose proof (run_inc gvcb _ k Hb Hh) as H; rewrite Hr in H; exact H.
    - pose proof (run_inco gvcb _ k Hb Hh) as H; rewrite Hr in H; exact H.
  Qed.

  (** C52.  When an inorder iterator over a finite tree has come to its end, it has called [get_value_and_children] exactly once on each node. *)
  Theorem C52_inorder_exactly_once : forall (n : Nd) (t : btree Nd) (k : nat), bwhole gvcb n t -> length (inorder t) <= k ->
    (forall s, after (lin_next gvcb) k (lin_new n) s -> Permutation (fst s) (inorder t)) /\
    (forall s, after (lina_next gvcb) k (lina_new n) s -> Permutation (fst s) (inorder t)) /\
    (forall s, after (linc_next gvcb) k (linc_new n []) s -> Permutation (fst s) (inorder t)) /\
    (forall s, after (linco_next gvcb) k (linco_new n []) s -> Permutation (fst s) (inorder t)).
  Proof.
    intros n t k Hw Hk; destruct (bwhole_part gvcb t n Hw) as (<- & Hb & Hall); pose proof (hold_all k _ Hall) as Hh.
    pose proof (entered_all t k Hk) as He.
    split; [|split; [|split]]; intros s Ha; rewrite <- He; pattern s; refine (after_run _ _ _ _ _ _ Ha _); clear s Ha; cbv beta.
    - exact (run_in gvcb _ k Hb Hh).
    - exact (run_ina gvcb _ k Hb Hh).
    - exact (run_inc gvcb _ k Hb Hh).
    - exact (run_inco gvcb _ k Hb Hh).
  Qed.
End LazyIn.

(** A binary tree with a bottom on the left only: an odd number has no children, an even [n] has the children [n + 1] and [n + 2]. *)
Definition ex_vine_gv (n : nat) : nat * (option nat * option nat) := (n, if Nat.even n then (Some (n + 1), Some (n + 2)) else (None, None)).
Example C51_inorder_example : exists s, calls (linc_next ex_vine_gv) 4 (linc_new 0 []) ⇓
  Ok ([Some (mkCtx [0%N] [0; 1] (Some (None, None))); Some (mkCtx [] [0] (Some (Some 1, Some 2)));
       Some (mkCtx [1%N; 0%N] [0; 2; 3] (Some (None, None))); Some (mkCtx [1%N] [0; 2] (Some (Some 3, Some 4)))], s).
Proof. refine (proj1 (proj2 (proj2 (C51_inorder ex_vine_gv 0 4 3 _)))); repeat constructor. Qed.
Example C52_inorder_example : forall s, after (lin_next ex_vine_gv) 3 (lin_new 0) s -> Permutation (fst s) [1; 0; 3; 2].
Proof. refine (proj1 (C52_inorder ex_vine_gv 0 3 3 _)); repeat constructor. Qed.

(** A finite one: [n] has the children [2n+1] and [2n+2] when these are below [4]. *)
Definition ex_below_gv (n : nat) : nat * (option nat * option nat) :=
  (n, (if 2 * n + 1 <? 4 then Some (2 * n + 1) else None, if 2 * n + 2 <? 4 then Some (2 * n + 2) else None)).
Definition ex_below_tree : btree nat := BNode 0 (Some (BNode 1 (Some (BNode 3 None None)) None)) (Some (BNode 2 None None)).
Example ex_below_whole : bwhole ex_below_gv 0 ex_below_tree.
Proof. repeat constructor. Qed.
Example C51_inorder_whole_example : yields (lina_next ex_below_gv) (lina_new 0) [[0; 1; 3]; [0; 1]; [0]; [0; 2]].
Proof. exact (proj1 (proj2 (C51_inorder_whole ex_below_gv 0 ex_below_tree ex_below_whole))). Qed.
Example C52_inorder_exactly_once_example : forall s, after (linco_next ex_below_gv) 5 (linco_new 0 []) s -> Permutation (fst s) [3; 1; 0; 2].
Proof. refine (proj2 (proj2 (proj2 (C52_inorder_exactly_once ex_below_gv 0 ex_below_tree 5 ex_below_whole _)))); repeat constructor. Qed.

(** The tree with no bottom where [n] has the children [2n+1] and [2n+2] has an endless left side. *)
Example C51_inorder_endless_example : forall fuel, lin_next (fun n => (n, (Some (2 * n + 1), Some (2 * n + 2)))) fuel (lin_new 0) = OutOfFuel.
Proof. exact (proj1 (C51_inorder_endless (fun n => (n, (Some (2 * n + 1), Some (2 * n + 2)))) (fun i => Nat.iter i (fun n => 2 * n + 1) 0) (fun i => eq_refl))). Qed.

Print Assumptions C51_inorder.
Print Assumptions C51_inorder_whole.
Print Assumptions C51_inorder_endless.
Print Assumptions C52_inorder.
Print Assumptions C52_inorder_exactly_once.
