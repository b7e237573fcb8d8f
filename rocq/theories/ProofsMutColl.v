(** * Lemmas about writing through the references of a collection of trees (for PropMut.v). *)
From Coq Require Import Permutation.
From Verif Require Import Prelim PrelimFacts Spec SpecFacts SpecObs ModelNode SpecPipe NodeFacts ProofsPath ModelMut ProofsMut ProofsPipeColl ProofsMutAnc.

(** Memory made of numbered parts. *)
Section Parts.
  Context {T A : Type}.
  Variable read : T -> place -> option A.
  Variable write : T -> place -> A -> T.
  Variable like : T -> T -> Prop.
  Hypothesis like_refl : forall m, like m m.
  Hypothesis like_trans : forall m1 m2 m3, like m1 m2 -> like m2 m3 -> like m1 m3.
  Hypothesis write_like : forall m r a, like m (write m r a).
  Hypothesis read_write : forall m r a, read m r <> None -> read (write m r a) r = Some a.
  Hypothesis read_other : forall m r a r', r' <> r -> read (write m r a) r' = read m r'.

  Definition parts_read (ts : list T) (p : place) : option A :=
    match p with [] => None | i :: q => match nth_error ts i with Some t => read t q | None => None end end.
  Definition parts_write (ts : list T) (p : place) (a : A) : list T :=
    match p with [] => ts | i :: q => update_nth i (fun t => write t q a) ts end.

  Lemma parts_read_write m r a : parts_read m r <> None -> parts_read (parts_write m r a) r = Some a.
  Proof.
    destruct r as [|i q]; cbn; [congruence|]; rewrite nth_update_nth, Nat.eqb_refl; destruct (nth_error m i); cbn; [apply read_write|congruence].
  Qed.
  Lemma parts_read_other m r a r' : r' <> r -> parts_read (parts_write m r a) r' = parts_read m r'.
  Proof.
    destruct r as [|i q]; [reflexivity|]; destruct r' as [|j q']; [reflexivity|]; cbn; intros H.
    rewrite nth_update_nth; destruct (Nat.eqb_spec j i) as [->|Hj]; [|reflexivity].
    destruct (nth_error m i); cbn; [apply read_other; congruence|reflexivity].
  Qed.
  Lemma parts_write_like m r a : Forall2 like m (parts_write m r a).
  Proof.
    assert (Hr : forall l, Forall2 like l l) by (induction l; constructor; auto).
    destruct r as [|i q]; cbn; [apply Hr|].
    revert i; induction m as [|t m IH]; intros [|i]; cbn; constructor; auto.
  Qed.
  Lemma Forall2_like_trans m1 : forall m2 m3, Forall2 like m1 m2 -> Forall2 like m2 m3 -> Forall2 like m1 m3.
  Proof.
    induction m1 as [|x m1 IH]; intros m2 m3 H1 H2; inversion H1; subst; inversion H2; subst; constructor; eauto.
  Qed.

  (** The places of each part, in an order. *)
  Variable refs : T -> list place.
  Variable vals : T -> list A.
  Hypothesis refs_nodup : forall t, NoDup (refs t).
  Hypothesis refs_read : forall t, map (read t) (refs t) = map Some (vals t).
  Hypothesis refs_like : forall t u, like t u -> refs t = refs u.

  Definition parts_refs (k : nat) (ts : list T) : list place := concat (mapi (fun i t => map (cons i) (refs t)) k ts).

  Lemma in_parts_refs ts : forall k p, In p (parts_refs k ts) -> exists i q, p = i :: q /\ k <= i.
  Proof.
    unfold parts_refs; induction ts as [|t ts IH]; intros k p; cbn; [intros []|]; rewrite in_app_iff; intros [H|H].
    - apply in_map_iff in H as (q & <- & _); exists k, q; split; [reflexivity|lia].
    - destruct (IH _ _ H) as (i & q & E & L); exists i, q; split; [exact E|lia].
  Qed.

  Lemma parts_nodup ts : forall k, NoDup (parts_refs k ts).
  Proof.
    induction ts as [|t ts IH]; intros k; unfold parts_refs; cbn; [constructor|]; apply NoDup_app.
    - apply FinFun.Injective_map_NoDup; [intros x y E; injection E; auto|apply refs_nodup].
    - apply IH.
    - intros p Hp Hp'; apply in_map_iff in Hp as (q & <- & _); destruct (in_parts_refs _ _ _ Hp') as (i & q' & E & L).
      injection E as E _; lia.
  Qed.

  Lemma parts_refs_read ts : map (parts_read ts) (parts_refs 0 ts) = map Some (flat_map vals ts).
  Proof.
    enough (H : forall pre, map (parts_read (pre ++ ts)) (parts_refs (length pre) ts) = map Some (flat_map vals ts)) by exact (H []).
    induction ts as [|t ts IH]; intros pre; [reflexivity|].
    unfold parts_refs; cbn; rewrite !map_app, map_map; f_equal.
    - rewrite <- refs_read; apply map_ext; intros q; cbn; rewrite nth_error_app2, Nat.sub_diag by lia; reflexivity.
    - specialize (IH (pre ++ [t])); rewrite <- app_assoc, app_length, Nat.add_1_r in IH; exact IH.
  Qed.

  Lemma parts_refs_like ts us k : Forall2 like ts us -> parts_refs k ts = parts_refs k us.
  Proof.
    intros H; revert k; induction H as [|t u ts us H _ IH]; intros k; unfold parts_refs; cbn; [reflexivity|].
    rewrite (refs_like _ _ H); f_equal; apply IH.
  Qed.

  Lemma for_each_parts {G S} (next : nat -> S -> Res (option place * S)) (f : G -> A -> G * A) s g ts :
    yields_to_end next s (parts_refs 0 ts) ->
    exists g' ts', for_each_mut next parts_read parts_write f s g ts ⇓ Ok (g', ts') /\
      Forall2 like ts ts' /\ map_accum f g (flat_map vals ts) = (g', flat_map vals ts').
  Proof.
    intros Y.
    destruct (for_each_ok parts_read parts_write (Forall2 like)) with (next := next) (f := f) (s := s) (g := g) (m := ts)
      (rs := parts_refs 0 ts) (vals := flat_map vals ts) as (g' & ts' & vals' & E1 & E2 & E3 & _ & E5).
    - induction m; constructor; auto.
    - exact Forall2_like_trans.
    - intros; apply parts_write_like.
    - exact parts_read_write.
    - exact parts_read_other.
    - exact Y.
    - apply parts_nodup.
    - apply parts_refs_read.
    - exists g', ts'; split; [exact E1|]; split; [exact E5|].
      rewrite (parts_refs_like _ _ _ E5), parts_refs_read in E3; apply map_Some_inj in E3; rewrite E3; exact E2.
  Qed.
End Parts.

Lemma for_each_trees (o : forall X, tree X -> list X) (Ho : is_order o) {A G S} (next : nat -> S -> Res (option place * S))
    (f : G -> A -> G * A) s g (ts : list (tree A)) :
  yields_to_end next s (flat_map (o _) (trees_refs ts)) ->
  exists g' ts', for_each_mut next trees_read trees_write f s g ts ⇓ Ok (g', ts') /\
    Forall2 same_shape ts ts' /\ map_accum f g (flat_map (o _) ts) = (g', flat_map (o _) ts').
Proof.
  intros Y.
  apply (for_each_parts tree_read tree_write (@same_shape A A)) with (refs := fun t => o _ (tree_refs t)).
  - reflexivity.
  - unfold same_shape; congruence.
  - intros; apply tree_write_shape.
  - intros; apply tree_read_write; assumption.
  - intros; apply tree_read_other; assumption.
  - intros; apply refs_nodup, Ho.
  - intros; apply refs_read, Ho.
  - intros t u H; rewrite (tree_refs_shape _ _ H); reflexivity.
  - replace (parts_refs _ 0 ts) with (flat_map (o _) (trees_refs ts)); [exact Y|].
    unfold parts_refs, trees_refs; rewrite flat_map_concat_map, map_mapi; f_equal; apply mapi_ext; intros i t; apply Ho.
Qed.

Lemma for_each_btrees (o : forall X, btree X -> list X) (Ho : is_border o) {A G S} (next : nat -> S -> Res (option place * S))
    (f : G -> A -> G * A) s g (ts : list (btree A)) :
  yields_to_end next s (flat_map (o _) (btrees_refs ts)) ->
  exists g' ts', for_each_mut next btrees_read btrees_write f s g ts ⇓ Ok (g', ts') /\
    Forall2 bsame_shape ts ts' /\ map_accum f g (flat_map (o _) ts) = (g', flat_map (o _) ts').
Proof.
  intros Y.
  apply (for_each_parts btree_read btree_write (@bsame_shape A A)) with (refs := fun t => o _ (btree_refs t)).
  - reflexivity.
  - unfold bsame_shape; congruence.
  - intros; apply btree_write_shape.
  - intros; apply btree_read_write; assumption.
  - intros; apply btree_read_other; assumption.
  - intros; apply brefs_nodup, Ho.
  - intros; apply brefs_read, Ho.
  - intros t u H; rewrite (btree_refs_shape _ _ H); reflexivity.
  - replace (parts_refs _ 0 ts) with (flat_map (o _) (btrees_refs ts)); [exact Y|].
    unfold parts_refs, btrees_refs; rewrite flat_map_concat_map, map_mapi; f_equal; apply mapi_ext; intros i t; apply Ho.
Qed.

(** ** Pure updates of a collection *)
Lemma app_inv_length {A} (l1 l2 r1 r2 : list A) : length l1 = length l2 -> l1 ++ r1 = l2 ++ r2 -> l1 = l2 /\ r1 = r2.
Proof.
  revert l2; induction l1 as [|x l1 IH]; intros [|y l2] HL E; cbn in *; try discriminate; [split; [reflexivity|exact E]|].
  injection E as -> E; injection HL as HL; destruct (IH _ HL E) as [-> ->]; split; reflexivity.
Qed.

Lemma flat_map_like {T A} (like : T -> T -> Prop) (o : T -> list A) :
  (forall t u, like t u -> length (o t) = length (o u)) -> (forall t u, like t u -> o t = o u -> t = u) ->
  forall ts us, Forall2 like ts us -> flat_map o ts = flat_map o us -> ts = us.
Proof.
  intros HL HE ts us H; induction H as [|t u ts us H _ IH]; cbn; [reflexivity|]; intros E.
  destruct (app_inv_length _ _ _ _ (HL _ _ H) E) as [E1 E2]; rewrite (HE _ _ H E1), (IH E2); reflexivity.
Qed.

Lemma order_length (o : forall X, tree X -> list X) (Ho : is_order o) {A} (t u : tree A) : same_shape t u -> length (o _ t) = length (o _ u).
Proof.
  intros H; rewrite <- (map_length (fun _ => tt) (o _ t)), <- (map_length (fun _ => tt) (o _ u)).
  rewrite <- !(proj1 Ho), H; reflexivity.
Qed.
Lemma border_length (o : forall X, btree X -> list X) (Ho : is_border o) {A} (t u : btree A) : bsame_shape t u -> length (o _ t) = length (o _ u).
Proof.
  intros H; rewrite <- (map_length (fun _ => tt) (o _ t)), <- (map_length (fun _ => tt) (o _ u)).
  rewrite <- !(proj1 Ho), H; reflexivity.
Qed.

Lemma for_each_trees_pure (o : forall X, tree X -> list X) (Ho : is_order o) {A S} (next : nat -> S -> Res (option place * S))
    (f : A -> A) s (ts : list (tree A)) :
  yields_to_end next s (flat_map (o _) (trees_refs ts)) ->
  for_each_mut next trees_read trees_write (fun _ v => (tt, f v)) s tt ts ⇓ Ok (tt, map (tree_map f) ts).
Proof.
  intros Y; destruct (for_each_trees o Ho next (fun _ v => (tt, f v)) s tt ts Y) as (g' & ts' & E1 & E2 & E3).
  rewrite map_accum_tt in E3; injection E3 as <- E3.
  replace (map (tree_map f) ts) with ts'; [exact E1|].
  apply (flat_map_like same_shape (o _)); [apply order_length, Ho|apply shape_order, Ho| |].
  - clear -E2; induction E2 as [|t u ts us H _ IH]; cbn; constructor; [|exact IH].
    unfold same_shape in *; rewrite <- H; apply map_shape.
  - rewrite <- E3, flat_map_map, map_flat_map; apply flat_map_ext; intros t; symmetry; apply Ho.
Qed.

Lemma for_each_btrees_pure (o : forall X, btree X -> list X) (Ho : is_border o) {A S} (next : nat -> S -> Res (option place * S))
    (f : A -> A) s (ts : list (btree A)) :
  yields_to_end next s (flat_map (o _) (btrees_refs ts)) ->
  for_each_mut next btrees_read btrees_write (fun _ v => (tt, f v)) s tt ts ⇓ Ok (tt, map (btree_map f) ts).
Proof.
  intros Y; destruct (for_each_btrees o Ho next (fun _ v => (tt, f v)) s tt ts Y) as (g' & ts' & E1 & E2 & E3).
  rewrite map_accum_tt in E3; injection E3 as <- E3.
  replace (map (btree_map f) ts) with ts'; [exact E1|].
  apply (flat_map_like bsame_shape (o _)); [apply border_length, Ho|apply bshape_order, Ho| |].
  - clear -E2; induction E2 as [|t u ts us H _ IH]; cbn; constructor; [|exact IH].
    unfold bsame_shape in *; rewrite <- H; apply bmap_shape.
  - rewrite <- E3, flat_map_map, map_flat_map; apply flat_map_ext; intros t; symmetry; apply Ho.
Qed.

(** ** Any node type, any memory: references are distinct keys of a map *)
Section AnyNode.
  Context {R A : Type} (eqb : R -> R -> bool) (Heq : forall x y, eqb x y = true <-> x = y).
  Definition store_write (m : R -> A) (r : R) (a : A) : R -> A := fun r' => if eqb r' r then a else m r'.

  Lemma for_each_store {G S} (next : nat -> S -> Res (option R * S)) (f : G -> A -> G * A) s g m rs :
    yields_to_end next s rs -> NoDup rs ->
    exists g' m', for_each_mut next (fun m r => Some (m r)) store_write f s g m ⇓ Ok (g', m') /\
      map_accum f g (map m rs) = (g', map m' rs) /\ forall r, ~ In r rs -> m' r = m r.
  Proof.
    intros Y ND.
    destruct (for_each_ok (fun m r => Some (m r)) store_write (fun _ _ => True)) with (next := next) (f := f) (s := s) (g := g) (m := m)
      (rs := rs) (vals := map m rs) as (g' & m' & vals' & E1 & E2 & E3 & E4 & _); auto.
    - intros m0 r a _; unfold store_write; rewrite (proj2 (Heq r r) eq_refl); reflexivity.
    - intros m0 r a r' N; unfold store_write; destruct (eqb r' r) eqn:E; [apply Heq in E; contradiction|reflexivity].
    - rewrite map_map; reflexivity.
    - exists g', m'; split; [exact E1|]; split.
      + rewrite E2; f_equal; symmetry; apply map_Some_inj; rewrite map_map; exact E3.
      + intros r Hr; specialize (E4 r Hr); injection E4; auto.
  Qed.
End AnyNode.
