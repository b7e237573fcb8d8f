(** * Consequences used in the property files. *)
From Verif Require Import Prelim PrelimFacts Spec SpecFacts ModelNode NodeFacts ProofsTree.

Lemma yields_stays {S A} (next : nat -> S -> Res (option A * S)) s l : yields next s l -> stays_exhausted next s.
Proof.
  intros H j os s1 Hc.
  assert (Hl : length l < j).
  { destruct (H j) as [s2 H2]; pose proof (conv_fun _ _ _ Hc H2) as E; injection E as E _.
    destruct (Nat.lt_ge_cases (length l) j) as [|Hge]; auto; exfalso.
    assert (Hin : In None (map (nth_error l) (seq 0 j))) by (rewrite <- E; apply in_or_app; right; left; reflexivity).
    apply in_map_iff in Hin as (i & Hi & Hin); apply in_seq in Hin; apply nth_error_None in Hi; lia. }
  assert (Ha : after next j s s1) by (eexists; exact Hc).
  pose proof (yields_after _ _ _ _ _ H Ha) as Hy; intros k; destruct (Hy k) as [s2 H2]; exists s2.
  rewrite skipn_all2 in H2 by lia.
  replace (repeat None k) with (map (nth_error (@nil A)) (seq 0 k)); [exact H2|].
  clear; generalize 0; induction k as [|k IH]; intros i; [reflexivity|]; cbn; rewrite IH; destruct i; reflexivity.
Qed.

(** Leaves and ancestors do not depend on how children are numbered. *)
Section LineFlat.
  Context {Nd V : Type} (gvcb : Nd -> V * (option Nd * option Nd)).

  Lemma is_leaf_binary n : is_leaf (binary_gvc gvcb) n = is_bleaf gvcb n.
  Proof. unfold is_leaf, is_bleaf; rewrite nkids_binary, nkids_pair; destruct (nleft gvcb n), (nright gvcb n); reflexivity. Qed.

  Definition last_is (h : Nd -> bool) (l : list Nd) : bool := match rev l with n :: _ => h n | [] => false end.
  Lemma last_is_line h (p : pos Nd) : last_is h (line p) = h (pos_here p).
  Proof. unfold last_is, line; rewrite rev_app_distr; reflexivity. Qed.

  Lemma filter_map {A B} (g : A -> B) h l : filter h (map g l) = map g (filter (fun x => h (g x)) l).
  Proof. induction l as [|x l IH]; cbn; auto; destruct (h (g x)); cbn; rewrite IH; reflexivity. Qed.

  Lemma leaf_lines (f : forall X, tree X -> list X) (t : btree Nd) k :
    (forall X Y (g : X -> Y) t, f Y (tree_map g t) = map g (f X t)) ->
    map (ancestors_at (binary_gvc gvcb)) (filter (fun p => is_leaf (binary_gvc gvcb) (pos_here p)) (skipn k (f _ (positions (flat t))))) =
    map (ancestors_at gvcb) (filter (fun p => is_bleaf gvcb (pos_here p)) (skipn k (f _ (flat (bpositions t))))).
  Proof.
    intros H.
    assert (E : forall {C} (gv : Nd -> V * C) (h : Nd -> bool) (l : list (pos Nd)),
      map (ancestors_at gv) (filter (fun p => h (pos_here p)) (skipn k l)) =
      map (map (nval gv)) (filter (last_is h) (skipn k (map line l)))).
    { intros; rewrite skipn_map, filter_map, map_map.
      rewrite (filter_ext (fun x => last_is h (line x)) (fun p => h (pos_here p))) by (intros; apply last_is_line); reflexivity. }
    rewrite !E, <- !H; unfold positions, bpositions; rewrite (line_flat t [] []).
    rewrite (filter_ext (last_is (is_leaf (binary_gvc gvcb))) (last_is (is_bleaf gvcb))).
    - apply map_ext; intros l; apply map_ext; intros n; apply nval_binary.
    - intros l; unfold last_is; destruct (rev l); auto; apply is_leaf_binary.
  Qed.
End LineFlat.
