(** * ProofsUnwindColl: collections of trees some of whose nodes panic *)
From Verif Require Import Prelim PrelimFacts FuelMono Spec SpecFacts SpecObs ModelNode NodeFacts ModelBfs ModelPre ModelPost ModelIn ModelColl ModelUnwind SpecUnwind ModelUnwindColl.
From Verif Require Import Slots ProofsPlain ProofsColl ProofsPre ProofsPost ProofsIn ProofsTree ProofsBfs ProofsUnwind ProofsUnwindIn ProofsUnwindUntil ProofsUnwindTotal.

(** One call, and what is left after it unless [good] fails for what it gave. *)
Definition unfolds {S A} (good : option (outcome A) -> Prop) (next : nat -> S -> Res (option (outcome A) * S)) (R : S -> list (outcome A) -> Prop) : Prop :=
  forall s l, R s l -> exists s', (fun f => next f s) ⇓ Ok (hd_error l, s') /\ (good (hd_error l) -> R s' (tl l)).

Lemma seq_tl {A} (l : list A) k : map (nth_error l) (seq 0 (S k)) = hd_error l :: map (nth_error (tl l)) (seq 0 k).
Proof.
  cbn [seq map]; rewrite <- seq_shift, map_map; replace (nth_error l 0) with (hd_error l) by (destruct l; reflexivity).
  f_equal; apply map_ext; intros i; destruct l as [|a l]; [destruct i|]; reflexivity.
Qed.

Section Until.
  Context {S A : Type} (next : nat -> S -> Res (option (outcome A) * S)).
  Lemma until_unfolds : unfolds (fun o => o <> Some Unwound) next (yields_until_panic next).
  Proof.
    intros s l Hy.
    destruct (Hy 1 ltac:(intros i Hi; lia)) as (s' & H1).
    assert (Hn : (fun f => next f s) ⇓ Ok (hd_error l, s')).
    { destruct H1 as [F HF]; exists F; intros f Hf; specialize (HF f Hf); cbn [calls] in HF.
      destruct (next f s) as [[o s1]| | |]; cbn [bindR] in HF; try discriminate HF; injection HF as E <-.
      rewrite E; destruct l; reflexivity. }
    exists s'; split; [exact Hn|]; intros Hg k Hk.
    destruct (Hy (Datatypes.S k)) as (s2 & H2).
    { intros [|i] Hi; [destruct l; exact Hg|]; specialize (Hk i ltac:(lia)); rewrite nth_error_tl in Hk; exact Hk. }
    exists s2; destruct H2 as [F HF], Hn as [G HG]; exists (F + G); intros f Hf; specialize (HF f ltac:(lia)); specialize (HG f ltac:(lia)).
    rewrite seq_tl in HF; cbn [calls] in HF; rewrite HG in HF; cbn [bindR] in HF.
    destruct (calls next k s' f) as [[os s3]| | |]; cbn [bindR] in HF; try discriminate HF; injection HF as E <-; rewrite E; reflexivity.
  Qed.
  Lemma unfolds_until R : unfolds (fun o => o <> Some Unwound) next R -> forall s l, R s l -> yields_until_panic next s l.
  Proof.
    intros HR s l Hs k; revert s l Hs; induction k as [|k IH]; intros s l Hs Hk; [exists s; apply calls_0|].
    destruct (HR s l Hs) as (s1 & Hn & Hs1); rewrite seq_tl; destruct k as [|k].
    - exists s1; eapply calls_S; [exact Hn|apply calls_0].
    - destruct (IH s1 (tl l)) as (s' & Hc).
      + apply Hs1; specialize (Hk 0 ltac:(lia)); destruct l; exact Hk.
      + intros i Hi; rewrite nth_error_tl; apply Hk; lia.
      + exists s'; eapply calls_S; [exact Hn|exact Hc].
  Qed.
  Lemma yields_unfolds : unfolds (fun _ => True) next (yields next).
  Proof. intros s l Hy; destruct (yields_step_inv _ _ _ Hy) as (s' & H1 & H2); exists s'; auto. Qed.
  Lemma unfolds_yields R : unfolds (fun _ => True) next R -> forall s l, R s l -> yields next s l.
  Proof. intros HR; apply step_inv_yields; intros s l Hs; destruct (HR s l Hs) as (s' & H1 & H2); exists s'; auto. Qed.
  Lemma until_all s l : ~ In Unwound l -> yields_until_panic next s l -> yields next s l.
  Proof. intros Hl Hy k; apply Hy; intros i _ E; apply Hl; eapply nth_error_In; exact E. Qed.
End Until.

(** [L i t]: what the tree [t] with index [i] gives. *)
Section Coll.
  Context {T S A : Type} (new : T -> list N -> option S) (next : nat -> S -> Res (option (outcome A) * S)) (get : S -> option A).
  Variable good : option (outcome A) -> Prop.
  Variable Y : S -> list (outcome A) -> Prop.
  Hypothesis HY : unfolds good next Y.
  Hypothesis Hnone : good None.
  Hypothesis Hget : forall f s a s', next f s = Ok (Some (Got a), s') -> get s' = Some a.
  Variable ok : T -> Prop.
  Variable L : nat -> T -> list (outcome A).
  Hypothesis HL : forall i t, ok t -> match new t [N.of_nat i] with Some it => Y it (L i t) | None => L i t = [Unwound] end.

  Definition uc_rest (j : nat) (trees : list T) : list (outcome A) := concat (mapi L j trees).
  Definition ucollc_R (s : collc T S) (l : list (outcome A)) : Prop :=
    Forall ok (cc_trees s) /\
    exists j, (cc_trees s = [] \/ cc_index s = enc j /\ (N.of_nat (j + length (cc_trees s)) <= usize_max)%N) /\
    match cc_cur s with
    | Some it => exists l0, Y it l0 /\ l = l0 ++ uc_rest j (cc_trees s)
    | None => l = uc_rest j (cc_trees s)
    end.

  Notation go := (fun s f => loop (ucollc_body new next) f s).
  (** What is known of the iterator kept: none, or one that has come to its end. *)
  Definition over (cur : option S) : Prop := match cur with Some it => Y it [] | None => True end.

  (** The tree at hand has nothing left: on to the next one. *)
  Lemma ucollc_on it it' trees index r : (fun f => next f it) ⇓ Ok (None, it') ->
    (fun f => match ucollc_next_tree new (mkCollc trees index (Some it')) with inl s => loop (ucollc_body new next) f s | inr r => Ok r end) ⇓ Ok r ->
    go (mkCollc trees index (Some it)) ⇓ Ok r.
  Proof.
    intros [G HG] [F HF]; exists (Datatypes.S (F + G)); intros f Hf; destruct f as [|f]; [lia|]; cbn [loop]; unfold ucollc_body at 1; cbn [cc_cur cc_trees cc_index].
    rewrite HG by lia; cbn [bindR]; specialize (HF f ltac:(lia)); destruct (ucollc_next_tree new _) as [s|r1]; exact HF.
  Qed.

  Lemma ucollc_take trees : forall j index cur, over cur -> Forall ok trees ->
    (trees = [] \/ index = enc j /\ (N.of_nat (j + length trees) <= usize_max)%N) ->
    exists r s', (fun f => match ucollc_next_tree new (mkCollc trees index cur) with inl s => loop (ucollc_body new next) f s | inr r => Ok r end) ⇓ Ok r /\
      observe (collc_get get) r = (hd_error (uc_rest j trees), s') /\ (good (hd_error (uc_rest j trees)) -> ucollc_R s' (tl (uc_rest j trees))).
  Proof.
    induction trees as [|t ts IH]; intros j index cur Hcur Hok Hi.
    - exists (Done (mkCollc [] (wrapping_succ index) None)), (mkCollc [] (wrapping_succ index) None); split; [now_conv|]; split; [reflexivity|]; intros _.
      split; [constructor|]; exists j; split; [left; reflexivity|reflexivity].
    - inversion Hok as [|? ? Ht Hts]; subst.
      destruct Hi as [Hi|[-> Hi]]; [discriminate|]; cbn [length] in Hi.
      assert (Ei : wrapping_succ (enc j) = N.of_nat j) by (apply enc_succ; lia).
      assert (Hi' : ts = [] \/ N.of_nat j = enc (Datatypes.S j) /\ (N.of_nat (Datatypes.S j + length ts) <= usize_max)%N)
        by (right; split; [reflexivity|rewrite Nat.add_succ_r in Hi; exact Hi]).
      unfold uc_rest; cbn [mapi concat]; fold (uc_rest (Datatypes.S j) ts); specialize (HL j t Ht).
      unfold ucollc_next_tree; cbn [cc_trees cc_index cc_cur]; rewrite Ei; destruct (new t [N.of_nat j]) as [it|].
      + destruct (HY it (L j t) HL) as (it' & Hn & Hy); destruct (L j t) as [|x l0]; cbn [hd_error tl app] in *.
        * destruct (IH (Datatypes.S j) (N.of_nat j) (Some it') (Hy Hnone) Hts Hi') as (r & s' & Hl & Ho & HR); exists r, s'; split; [|split; [exact Ho|exact HR]].
          exact (ucollc_on it it' ts _ r Hn Hl).
        * pose (s' := mkCollc ts (N.of_nat j) (Some it')).
          exists (match x with Got _ => Done s' | Unwound => Raised s' end), s'; split; [|split].
          -- apply loop_done; unfold ucollc_body; cbn [cc_cur cc_trees cc_index]; eapply conv_bind; [exact Hn|destruct x; now_conv].
          -- destruct x as [a|]; [|reflexivity]; cbn [observe collc_get cc_cur s']; destruct Hn as [G HG]; rewrite (Hget G it a it' (HG G (le_n _))); reflexivity.
          -- intros Hg; split; [exact Hts|]; exists (Datatypes.S j); split; [exact Hi'|]; exists l0; split; [exact (Hy Hg)|reflexivity].
      + rewrite HL; cbn [hd_error tl app]; eexists; eexists; split; [now_conv|]; split; [reflexivity|]; intros _.
        split; [exact Hts|]; exists (Datatypes.S j); split; [exact Hi'|]; cbn [cc_cur cc_trees]; destruct cur as [it|]; [exists []; split; [exact Hcur|reflexivity]|reflexivity].
  Qed.

  Lemma ucollc_unfolds : unfolds good (ucollc_next new next get) ucollc_R.
  Proof.
    intros [trees index cur] l (Hok & j & Hi & H); cbn [cc_cur cc_trees cc_index] in *.
    assert (Hend : forall r s', go (mkCollc trees index cur) ⇓ Ok r -> observe (collc_get get) r = (hd_error l, s') ->
      (good (hd_error l) -> ucollc_R s' (tl l)) -> exists s', (fun f => ucollc_next new next get f (mkCollc trees index cur)) ⇓ Ok (hd_error l, s') /\ (good (hd_error l) -> ucollc_R s' (tl l))).
    { intros r s' Hr Ho HR; exists s'; split; [|exact HR]; unfold ucollc_next; eapply conv_bind; [exact Hr|]; rewrite Ho; now_conv. }
    destruct cur as [it|].
    - destruct H as (l0 & Hy & ->); destruct (HY it l0 Hy) as (it' & Hn & Hy'); destruct l0 as [|x l0]; cbn [hd_error tl app] in *.
      + destruct (ucollc_take trees j index (Some it') (Hy' Hnone) Hok Hi) as (r & s' & Hl & Ho & HR); apply (Hend r s'); [|exact Ho|exact HR].
        exact (ucollc_on it it' trees index r Hn Hl).
      + pose (s' := mkCollc trees index (Some it')); apply (Hend (match x with Got _ => Done s' | Unwound => Raised s' end) s').
        * apply loop_done; unfold ucollc_body; cbn [cc_cur cc_trees cc_index]; eapply conv_bind; [exact Hn|destruct x; now_conv].
        * destruct x as [a|]; [|reflexivity]; cbn [observe collc_get cc_cur s']; destruct Hn as [G HG]; rewrite (Hget G it a it' (HG G (le_n _))); reflexivity.
        * intros Hg; split; [exact Hok|]; exists j; split; [exact Hi|]; exists l0; split; [exact (Hy' Hg)|reflexivity].
    - subst l; destruct (ucollc_take trees j index None Logic.I Hok Hi) as (r & s' & Hl & Ho & HR); apply (Hend r s'); [|exact Ho|exact HR].
      destruct Hl as [F HF]; exists (Datatypes.S F); intros f Hf; destruct f as [|f]; [lia|]; cbn [loop]; unfold ucollc_body at 1; cbn [cc_cur].
      specialize (HF f ltac:(lia)); cbn [bindR]; destruct (ucollc_next_tree new _) as [s1|r1]; exact HF.
  Qed.

  Lemma ucollc_start trees : Forall ok trees -> (N.of_nat (length trees) <= usize_max)%N -> ucollc_R (mkCollc trees usize_max None) (concat (mapi L 0 trees)).
  Proof. intros Hok Hn; split; [exact Hok|]; exists 0; split; [right; split; [reflexivity|exact Hn]|reflexivity]. Qed.
End Coll.

Lemma observe_got {S A} (adv : nat -> S -> Res (ran S)) (get : S -> option A) f s a s' :
  (r <- adv f s ;; Ok (observe get r)) = Ok (Some (Got a), s') -> get s' = Some a.
Proof.
  destruct (adv f s) as [[s1|s1]| | |]; cbn; try discriminate; intros E; injection E as E <-; destruct (get s1); cbn in E; congruence.
Qed.

Section Trees.
  Context {Nd V : Type} (gvc : Nd -> option (V * list Nd)) (nt : Nd -> tree Nd) (Hnt : fnode_tree gvc nt) (trees : list Nd).
  Hypothesis Hsmall : Forall (fun n => small_fnodes gvc (nt n)) trees.
  Hypothesis Hlen : (N.of_nat (length trees) <= usize_max)%N.

  Lemma each_seen {C} (gv : Nd -> option (V * C)) (f : forall X, tree X -> list X) :
    (forall X Y (g : X -> Y) t, f Y (tree_map g t) = map g (f X t)) -> forall i t,
    map (seen_context gv) (f _ (annotate [i] [] (nt t))) = map (fun p => seen_context gv (in_tree i p)) (f _ (positions (nt t))).
  Proof. intros Hf i t; rewrite annotate_prefix, Hf, map_map; reflexivity. Qed.

  Lemma uprec_each : yields_until_panic (uprec_each_next gvc) (mkCollc trees usize_max None)
    (each (fun i n => map (fun p => seen_context gvc (in_tree i p)) (preorder (positions (nt n)))) trees).
  Proof.
    set (L := fun i n => map (fun p => seen_context gvc (in_tree i p)) (preorder (positions (nt n)))).
    apply (unfolds_until _ (ucollc_R (yields_until_panic (uprec_next gvc)) (fun n => small_fnodes gvc (nt n)) L)); [|apply ucollc_start; assumption].
    apply ucollc_unfolds; [apply until_unfolds|discriminate|apply observe_got|]; intros i n Hn; unfold L.
    rewrite <- (each_seen gvc (fun X => @preorder X)) by (intros; apply preorder_map); exact (prec_until gvc nt [i] n Hnt Hn).
  Qed.
  Lemma upostc_each : yields_until_panic (upostc_each_next gvc) (mkCollc trees usize_max None)
    (each (fun i n => map (fun p => seen_context gvc (in_tree i p)) (postorder (positions (nt n)))) trees).
  Proof.
    set (L := fun i n => map (fun p => seen_context gvc (in_tree i p)) (postorder (positions (nt n)))).
    apply (unfolds_until _ (ucollc_R (yields_until_panic (upostc_next gvc)) (fun n => small_fnodes gvc (nt n)) L)); [|apply ucollc_start; assumption].
    apply ucollc_unfolds; [apply until_unfolds|discriminate|apply observe_got|]; intros i n Hn; unfold L.
    rewrite <- (each_seen gvc (fun X => @postorder X)) by (intros; apply postorder_map); exact (postc_until gvc nt [i] n Hnt Hn).
  Qed.

  Lemma bfsc_root i n : gvc n = None -> map (fun p => seen_context gvc (in_tree i p)) (bfs (positions (nt n))) = [Unwound].
  Proof. intros E; rewrite Hnt, E; cbn; unfold seen_context; cbn; rewrite E; reflexivity. Qed.
  Lemma bfsc_tree i n : small_fnodes gvc (nt n) ->
    match ubfsc_start gvc n [N.of_nat i] with
    | Some it => yields_until_panic (ubfsc_next gvc) it (map (fun p => seen_context gvc (in_tree i p)) (bfs (positions (nt n))))
    | None => map (fun p => seen_context gvc (in_tree i p)) (bfs (positions (nt n))) = [Unwound]
    end.
  Proof.
    intros Hn; destruct (ubfsc_start gvc n [N.of_nat i]) as [it|] eqn:E.
    - rewrite <- (each_seen gvc (fun X => @bfs X)) by (intros; apply bfs_map); exact (bfsc_until gvc nt [i] n it Hnt Hn E).
    - apply bfsc_root; unfold ubfsc_start in E; destruct (gvc n) as [[v c]|]; [discriminate E|reflexivity].
  Qed.
  Lemma ubfsc_each : yields_until_panic (ubfsc_each_next gvc) (mkCollc trees usize_max None)
    (each (fun i n => map (fun p => seen_context gvc (in_tree i p)) (bfs (positions (nt n)))) trees).
  Proof.
    set (L := fun i n => map (fun p => seen_context gvc (in_tree i p)) (bfs (positions (nt n)))).
    apply (unfolds_until _ (ucollc_R (yields_until_panic (ubfsc_next gvc)) (fun n => small_fnodes gvc (nt n)) L)); [|apply ucollc_start; assumption].
    apply ucollc_unfolds; [apply until_unfolds|discriminate|apply observe_got|exact bfsc_tree].
  Qed.

  (** Only roots panic. *)
  Hypothesis Hroots : Forall (fun n => gvc n = None \/ forall m, In m (preorder (nt n)) -> gvc m <> None) trees.
  Definition rooted (n : Nd) : Prop := small_fnodes gvc (nt n) /\ (gvc n = None \/ forall m, In m (preorder (nt n)) -> gvc m <> None).
  Lemma all_rooted : Forall rooted trees.
  Proof. unfold rooted; rewrite Forall_forall in *; auto. Qed.

  Lemma quiet_tree (f : forall X, tree X -> list X) i n : (forall m, In m (preorder (nt n)) -> gvc m <> None) ->
    (forall X (t : tree X) x, In x (f X t) -> In x (preorder t)) ->
    ~ In Unwound (map (fun p => seen_context gvc (in_tree i p)) (f _ (positions (nt n)))).
  Proof.
    intros Hr Hf Hu; apply in_map_iff in Hu as (p & Ep & Hp); apply (Hr (pos_here p)).
    - rewrite <- (annotate_here (nt n) [] []), preorder_map; apply in_map, Hf, Hp.
    - unfold seen_context in Ep; cbn [in_tree pos_here] in Ep; destruct (gvc (pos_here p)) as [[? ?]|]; [discriminate Ep|reflexivity].
  Qed.
  Lemma ends_once {S A} (next : nat -> S -> Res (option (outcome A) * S)) s s1 :
    (fun f => next f s) ⇓ Ok (Some Unwound, s1) -> (fun f => next f s1) ⇓ Ok (None, s1) -> yields next s [Unwound].
  Proof.
    intros H1 H2; apply (step_inv_yields next (fun x l => (x = s /\ l = [Unwound]) \/ (x = s1 /\ l = []))); [|left; auto].
    intros x l [[-> ->]|[-> ->]]; (exists s1; split; [assumption|right; auto]).
  Qed.
  Lemma root_alone (f : forall X, tree X -> list X) i n : gvc n = None -> (forall X (x : X), f X (TNode x []) = [x]) ->
    map (fun p => seen_context gvc (in_tree i p)) (f _ (positions (nt n))) = [Unwound].
  Proof. intros E Hf; rewrite Hnt, E; unfold positions; cbn; rewrite Hf; cbn; unfold seen_context; cbn; rewrite E; reflexivity. Qed.

  Lemma ubfsc_each_roots : yields (ubfsc_each_next gvc) (mkCollc trees usize_max None)
      (each (fun i n => map (fun p => seen_context gvc (in_tree i p)) (bfs (positions (nt n)))) trees).
  Proof.
    set (L := fun i n => map (fun p => seen_context gvc (in_tree i p)) (bfs (positions (nt n)))).
    apply (unfolds_yields _ (ucollc_R (yields (ubfsc_next gvc)) rooted L)); [|apply ucollc_start; [apply all_rooted|assumption]].
    apply ucollc_unfolds; [apply yields_unfolds|exact Logic.I|apply observe_got|].
    intros i n (Hn & Hr); pose proof (bfsc_tree i n Hn) as Ht; unfold ubfsc_start in *; destruct Hr as [E|Hr]; [rewrite E in *; exact Ht|].
    destruct (gvc n) as [[v c]|] eqn:E; [|exact Ht]; apply until_all; [|exact Ht].
    apply (quiet_tree (@bfs)); [exact Hr|]; intros X t x Hx; eapply Permutation.Permutation_in; [apply bfs_perm|exact Hx].
  Qed.
  Lemma uprec_each_roots : yields (uprec_each_next gvc) (mkCollc trees usize_max None)
      (each (fun i n => map (fun p => seen_context gvc (in_tree i p)) (preorder (positions (nt n)))) trees).
  Proof.
    set (L := fun i n => map (fun p => seen_context gvc (in_tree i p)) (preorder (positions (nt n)))).
    apply (unfolds_yields _ (ucollc_R (yields (uprec_next gvc)) rooted L)); [|apply ucollc_start; [apply all_rooted|assumption]].
    apply ucollc_unfolds; [apply yields_unfolds|exact Logic.I|apply observe_got|].
    intros i n (Hn & Hr); unfold L; destruct Hr as [E|Hr].
    - rewrite (root_alone (@preorder)) by (exact E || reflexivity); apply (ends_once _ _ (mkPrec None [] [N.of_nat i] [] None)); [|apply conv_eq; reflexivity].
      apply conv_eq; intros f; unfold uprec_next, uprec_advance, prec_new; cbn [pc_root]; rewrite E; reflexivity.
    - apply until_all; [apply (quiet_tree (@preorder)); [exact Hr|auto]|].
      rewrite <- (each_seen gvc (fun X => @preorder X)) by (intros; apply preorder_map); exact (prec_until gvc nt [i] n Hnt Hn).
  Qed.
  Lemma upostc_each_roots : yields (upostc_each_next gvc) (mkCollc trees usize_max None)
      (each (fun i n => map (fun p => seen_context gvc (in_tree i p)) (postorder (positions (nt n)))) trees).
  Proof.
    set (L := fun i n => map (fun p => seen_context gvc (in_tree i p)) (postorder (positions (nt n)))).
    apply (unfolds_yields _ (ucollc_R (yields (upostc_next gvc)) rooted L)); [|apply ucollc_start; [apply all_rooted|assumption]].
    apply ucollc_unfolds; [apply yields_unfolds|exact Logic.I|apply observe_got|].
    intros i n (Hn & Hr); unfold L; destruct Hr as [E|Hr].
    - rewrite (root_alone (@postorder)) by (exact E || reflexivity); apply (ends_once _ _ (mkPostc None [] [] [N.of_nat i] [] None)); [|apply conv_eq; reflexivity].
      apply conv_eq; intros f; unfold upostc_next, upostc_advance, postc_new; cbn [ModelPost.pt_root]; rewrite E; reflexivity.
    - apply until_all; [apply (quiet_tree (@postorder)); [exact Hr|]|].
      + intros X t x Hx; eapply Permutation.Permutation_in; [apply postorder_perm|exact Hx].
      + rewrite <- (each_seen gvc (fun X => @postorder X)) by (intros; apply postorder_map); exact (postc_until gvc nt [i] n Hnt Hn).
  Qed.
End Trees.

(** ** The inorder iterator with context, begun with a path: it does what it does without, with that path in front, until it has come to its end. *)
Section Based.
  Context {Nd V : Type} (gvcb : Nd -> option (V * (option Nd * option Nd))) (base : list N).
  Notation C := (option Nd * option Nd)%type.

  Definition rights (st : list status) : nat := length (filter (fun x => match x with WentRight => false | _ => true end) st).
  (** What the states of the iterator meet: the right stack holds one entry for each node whose right side is still to come, and at the start the root. *)
  Definition binv (s : inc Nd V) : Prop :=
    length (ic_path s) = pred (length (ic_status s)) /\ (length (ic_right s) = rights (ic_status s) \/ ic_status s = [] /\ length (ic_right s) = 1).
  Definition bpath (s : inc Nd V) (p : list N) : Prop := p = ic_path s ++ base \/ ic_status s = [] /\ ic_right s = [].
  Definition brel (s s' : inc Nd V) : Prop :=
    binv s /\ bpath s (ic_path s') /\ s' = mkInc (ic_right s) (ic_path s') (ic_anc s) (ic_children s) (ic_conts s) (ic_status s).
  Definition rebase (o : outcome (tree_context V C)) : outcome (tree_context V C) :=
    match o with Got c => Got (mkCtx (rev base ++ c_path c) (c_ancestors c) (c_children c)) | Unwound => Unwound end.

  (** The node to go down to has been taken from the right stack. *)
  Definition bdown (s s' : inc Nd V) : Prop :=
    length (ic_path s) = pred (length (ic_status s)) /\ length (ic_right s) = rights (ic_status s) /\
    s' = mkInc (ic_right s) (ic_path s ++ base) (ic_anc s) (ic_children s) (ic_conts s) (ic_status s).
  Definition bfound (r r' : found (Nd := Nd) (inc Nd V)) : Prop :=
    match r, r' with
    | Return s, Return s' => brel s s' /\ (ic_anc s = [] \/ ic_path s' = ic_path s ++ base)
    | Descend n s, Descend n' s' => n = n' /\ bdown s s'
    | _, _ => False
    end.

  Lemma based_find s s' r : brel s s' -> (fun f => loop inc_find_body f s) ⇓ Ok r ->
    exists r', (fun f => loop inc_find_body f s') ⇓ Ok r' /\ bfound r r'.
  Proof.
    intros HR Hl; apply (loop_sim_conv inc_find_body inc_find_body brel bfound) with (s1 := s); [| |exact HR|exact Hl]; [intros f g x; reflexivity|].
    clear; intros f [ri pa an ch co st] [ri' pa' an' ch' co' st'] ((Hp & Hr) & Hpa & E); cbn [ic_path ic_right ic_anc ic_children ic_conts ic_status] in *.
    injection E as -> -> -> -> ->; unfold bpath in Hpa; unfold inc_find_body; cbn [ic_path ic_right ic_anc ic_children ic_conts ic_status] in *.
    destruct st as [|[| |] st].
    - destruct ri as [|[n|] ri]; split; intros x Ex; try discriminate Ex; injection Ex as <-.
      + eexists; split; [reflexivity|]; split; [|left; reflexivity]; split; [split; [exact Hp|left; reflexivity]|split; [right; auto|reflexivity]].
      + destruct Hpa as [->|[_ E]]; [|discriminate E].
        eexists; split; [reflexivity|]; split; [reflexivity|]; split; [exact Hp|split; [cbn in *; lia|reflexivity]].
      + left; eexists; split; [reflexivity|]; destruct ri as [|? ?]; [|cbn in Hr; exfalso; destruct Hr as [Hr|[_ Hr]]; discriminate Hr].
        split; [split; [exact Hp|left; reflexivity]|split; [right; auto|reflexivity]].
    - destruct Hpa as [->|[E _]]; [|discriminate E]; destruct Hr as [Hr|[E _]]; [|discriminate E].
      destruct co as [|c co]; split; intros x Ex; try discriminate Ex; injection Ex as <-.
      eexists; split; [reflexivity|]; split; [|right; reflexivity]; split; [split; [exact Hp|left; exact Hr]|split; [left; reflexivity|reflexivity]].
    - destruct Hpa as [->|[E _]]; [|discriminate E]; destruct Hr as [Hr|[E _]]; [|discriminate E].
      destruct ri as [|[n|] ri]; [discriminate Hr| |]; split; intros x Ex; try discriminate Ex; injection Ex as <-; injection Hr as Hr.
      + eexists; split; [reflexivity|]; split; [reflexivity|]; split; [exact Hp|split; [exact Hr|reflexivity]].
      + left; eexists; split; [reflexivity|]; split; [split; [exact Hp|left; exact Hr]|split; [left; reflexivity|reflexivity]].
    - destruct Hpa as [->|[E _]]; [|discriminate E]; destruct Hr as [Hr|[E _]]; [|discriminate E].
      split; intros x Ex; try discriminate Ex; injection Ex as <-.
      left; eexists; split; [reflexivity|]; destruct st as [|t st]; cbn in Hp.
      + destruct pa; [|discriminate Hp]; destruct ri; [|discriminate Hr].
        split; [split; [reflexivity|left; reflexivity]|split; [right; auto|reflexivity]].
      + destruct pa as [|a pa]; [discriminate Hp|injection Hp as Hp].
        split; [split; [exact Hp|left; exact Hr]|split; [left; reflexivity|reflexivity]].
  Qed.

  Lemma based_push st pa : length pa = pred (length st) -> push_segment st (pa ++ base) = push_segment st pa ++ base /\ length (push_segment st pa) = length st.
  Proof. destruct st as [|[| |] st]; cbn; intros H; split; try reflexivity; lia. Qed.

  Definition bran (r r' : ran (inc Nd V)) : Prop :=
    match r, r' with Done s, Done s' => bdown s s' /\ (exists st, ic_status s = WentLeft :: st) | Raised s, Raised s' => bdown s s' | _, _ => False end.
  Lemma based_descend n s s' r : bdown s s' -> (fun f => loop (uinc_descend_body gvcb) f (Some n, s)) ⇓ Ok r ->
    exists r', (fun f => loop (uinc_descend_body gvcb) f (Some n, s')) ⇓ Ok r' /\ bran r r'.
  Proof.
    intros HR Hl; apply (loop_sim_conv (uinc_descend_body gvcb) (uinc_descend_body gvcb) (fun x y => fst x = fst y /\ bdown (snd x) (snd y) /\ (fst x <> None \/ exists st, ic_status (snd x) = WentLeft :: st)) bran)
      with (s1 := (Some n, s)); [| |split; [reflexivity|split; [exact HR|left; discriminate]]|exact Hl]; [intros f g x; reflexivity|].
    clear; intros f [cur s] [cur' s'] (E & (Hp & Hr & E') & Hc); cbn [fst snd] in *; subst cur' s'.
    destruct cur as [n|]; unfold uinc_descend_body; [destruct (gvcb n) as [[v [l r]]|]|]; split; intros x Ex; try discriminate Ex; injection Ex as <-.
    - destruct (based_push _ _ Hp) as [E1 E2]; left; eexists; split; [reflexivity|]; cbn [fst snd]; split; [reflexivity|].
      split; [|right; eexists; reflexivity].
      split; [exact E2|split; [cbn; unfold rights; cbn; f_equal; exact Hr|cbn [ic_path ic_right ic_anc ic_children ic_conts ic_status]; rewrite E1; reflexivity]].
    - eexists; split; [reflexivity|]; split; [exact Hp|split; [exact Hr|reflexivity]].
    - eexists; split; [reflexivity|]; split; [split; [exact Hp|split; [exact Hr|reflexivity]]|]; destruct Hc as [Hc|Hc]; [destruct (Hc eq_refl)|exact Hc].
  Qed.

  Lemma based_get s s' : s' = mkInc (ic_right s) (ic_path s') (ic_anc s) (ic_children s) (ic_conts s) (ic_status s) -> ic_anc s = [] \/ ic_path s' = ic_path s ++ base ->
    option_map Got (inc_get s') = option_map rebase (option_map Got (inc_get s)).
  Proof.
    intros -> H; unfold inc_get; cbn [ic_path ic_anc ic_children] in *; destruct (ic_anc s) as [|v an]; [reflexivity|].
    destruct H as [H| ->]; [discriminate H|]; cbn; rewrite rev_app_distr; reflexivity.
  Qed.

  Lemma based_sim s s' o s1 : brel s s' -> (fun f => uinc_next gvcb f s) ⇓ Ok (o, s1) ->
    exists s1', (fun f => uinc_next gvcb f s') ⇓ Ok (option_map rebase o, s1') /\ brel s1 s1'.
  Proof.
    intros HR Hn; unfold uinc_next, uinc_advance in *.
    apply (conv_bind_inv _ (fun _ => _)) in Hn.
    2: { apply more_bind; [apply more_flat, flat_inc_find|intros [x|n x]; [apply more_const|]].
         apply (more_bind _ (fun _ => _)); [apply more_flat; intros f g x0; reflexivity|intros [y|y]; [|apply more_const]].
         apply (more_bind _ (fun _ => _)); [apply more_const|intros z; destruct (ic_conts y); apply more_const]. }
    destruct Hn as (rx & Hn & Hk); apply conv_const_inv in Hk; injection Hk as Eobs.
    apply (conv_bind_inv (fun f => loop inc_find_body f s) (fun f x => _)) in Hn; [|apply more_flat, flat_inc_find].
    destruct Hn as (r1 & Hl & Hk); destruct (based_find _ _ _ HR Hl) as (r2 & Hl2 & HQ).
    assert (Hgo : exists rx', (fun f => match r2 with
        | Return s' => Ok (Done s')
        | Descend n s' => r <- loop (uinc_descend_body gvcb) f (Some n, s') ;;
            match r with
            | Done s'' => st <- set_returned (ic_status s'') ;;
                match ic_conts s'' with [] => Panic | c :: conts => Ok (Done (mkInc (ic_right s'') (ic_path s'') (ic_anc s'') (Some c) conts st)) end
            | Raised s'' => Ok (Raised s'') end end) ⇓ Ok rx' /\
        fst (observe inc_get rx') = option_map rebase (fst (observe inc_get rx)) /\ brel (snd (observe inc_get rx)) (snd (observe inc_get rx'))).
    { destruct r1 as [x|n x], r2 as [x'|n' x']; try contradiction HQ; cbn [bfound] in HQ.
      - destruct HQ as (Hb & Ha); apply conv_const_inv in Hk; injection Hk as <-; exists (Done x'); split; [apply conv_eq; reflexivity|].
        split; [|exact Hb]; apply based_get; [apply Hb|exact Ha].
      - destruct HQ as (<- & Hb); cbn beta iota in Hk.
        apply (conv_bind_inv (fun f => loop (uinc_descend_body gvcb) f (Some n, x)) (fun f r => _)) in Hk; [|apply more_flat; intros f g y; reflexivity].
        destruct Hk as (y & Hd & Hk); destruct (based_descend _ _ _ _ Hb Hd) as (y' & Hd' & HQ); cbn beta iota in Hk.
        destruct y as [y|y], y' as [y'|y']; try contradiction HQ; apply conv_const_inv in Hk.
        + destruct HQ as ((Hp & Hr & ->) & st & Es); destruct y as [ri pa an ch co st']; cbn [ic_right ic_path ic_anc ic_children ic_conts ic_status] in *; subst st'.
          destruct co as [|c co]; [discriminate Hk|].
          cbn [set_returned bindR] in Hk; injection Hk as <-; eexists; split.
          * eapply (conv_bind _ _ (fun _ => _)); [exact Hd'|apply conv_eq; reflexivity].
          * cbn [observe fst snd ic_right ic_path ic_anc]; split; [apply based_get; [reflexivity|right; reflexivity]|].
            split; [split; [exact Hp|left; exact Hr]|split; [left; reflexivity|reflexivity]].
        + destruct HQ as (Hp & Hr & ->); injection Hk as <-; eexists; split; [eapply (conv_bind _ _ (fun _ => _)); [exact Hd'|apply conv_eq; reflexivity]|].
          cbn [observe fst snd]; split; [reflexivity|]; split; [split; [exact Hp|left; exact Hr]|split; [left; reflexivity|reflexivity]]. }
    destruct Hgo as (rx' & Hrx & Ho & Hb); rewrite Eobs in Ho, Hb; cbn [fst snd] in Ho, Hb.
    exists (snd (observe inc_get rx')); split; [|exact Hb].
    rewrite <- Ho, <- surjective_pairing; eapply (conv_bind _ _ (fun _ => _)); [|apply conv_eq; reflexivity]; eapply conv_bind; [exact Hl2|exact Hrx].
  Qed.
End Based.

Section BTrees.
  Context {Nd V : Type} (gvcb : Nd -> option (V * (option Nd * option Nd))) (bt : Nd -> btree Nd) (Hbt : fnode_btree gvcb bt) (trees : list Nd).
  Lemma inc_tree i n : yields (uinc_next gvcb) (inc_new n [N.of_nat i]) (map (fun p => seen_context gvcb (in_tree i p)) (inorder (bpositions (bt n)))).
  Proof.
    replace (map (fun p => seen_context gvcb (in_tree i p)) (inorder (bpositions (bt n))))
      with (map (rebase [N.of_nat i]) (map got_ctx (map (context_at (btot gvcb)) (inorder (bpositions (bt n)))))).
    - apply (usim_yields _ _ (rebase [N.of_nat i]) (brel [N.of_nat i]) (based_sim gvcb [N.of_nat i]) (inc_new n [])).
      + split; [split; [reflexivity|right; auto]|split; [left; reflexivity|reflexivity]].
      + apply (usim_yields _ _ got_ctx uinc_R (uinc_sim gvcb) (inc_new n [])); [split; [reflexivity|exists None; left; reflexivity]|].
        exact (inc_yields _ bt [] (node_btot gvcb bt Hbt) n).
    - rewrite !map_map; apply map_ext; intros p; rewrite (seen_ctx gvcb); unfold seen_context; cbn [in_tree pos_here pos_above pos_path].
      destruct (gvcb (pos_here p)) as [[v c]|]; reflexivity.
  Qed.
  Hypothesis Hlen : (N.of_nat (length trees) <= usize_max)%N.
  Lemma uinc_each : yields (uinc_each_next gvcb) (mkCollc trees usize_max None)
    (each (fun i n => map (fun p => seen_context gvcb (in_tree i p)) (inorder (bpositions (bt n)))) trees).
  Proof.
    set (L := fun i n => map (fun p => seen_context gvcb (in_tree i p)) (inorder (bpositions (bt n)))).
    apply (unfolds_yields _ (ucollc_R (yields (uinc_next gvcb)) (fun _ => True) L)); [|apply ucollc_start; [apply Forall_forall; auto|assumption]].
    apply ucollc_unfolds; [apply yields_unfolds|exact Logic.I|apply observe_got|].
    intros i n _; apply inc_tree.
  Qed.
End BTrees.

(** ** Nothing panics *)
Lemma coll_total {T S A} (new : T -> S) (next : nat -> S -> Res (option A * S)) unext :
  (forall f s, unext f s = (x <- next f s ;; Ok (ran_ok x))) ->
  forall f s, coll_next new unext f s = (x <- coll_next new next f s ;; Ok (ran_ok x)).
Proof.
  intros Hn f s; unfold coll_next; rewrite (loop_map ran_ok (coll_body new next) (coll_body new unext)); [reflexivity|].
  clear f s; intros f s; unfold coll_body, coll_next_tree; destruct (co_cur s) as [it|]; [|destruct (co_trees s); reflexivity].
  rewrite Hn; destruct (next f it) as [[[a|] it']| | |]; cbn [bindR ran_ok option_map]; try reflexivity; destruct (co_trees s); reflexivity.
Qed.
Lemma collc_total {T S A} (unew : T -> list N -> option S) (new : T -> list N -> S) (next : nat -> S -> Res (option A * S)) unext get :
  (forall t p, unew t p = Some (new t p)) -> (forall f s, unext f s = (x <- next f s ;; Ok (ran_ok x))) ->
  forall f s, ucollc_next unew unext get f s = (x <- collc_next new next get f s ;; Ok (ran_ok x)).
Proof.
  intros Hw Hn f s; unfold ucollc_next, collc_next, collc_advance; rewrite (loop_map (@Done _) (collc_body new next) (ucollc_body unew unext)).
  - destruct (loop _ f s); reflexivity.
  - clear f s; intros f s; unfold ucollc_body, ucollc_next_tree, collc_body, collc_next_tree; destruct (cc_cur s) as [it|].
    + rewrite Hn; destruct (next f it) as [[[a|] it']| | |]; cbn [bindR ran_ok option_map]; try reflexivity; cbn [cc_trees cc_index cc_cur].
      destruct (cc_trees s); [reflexivity|rewrite Hw; reflexivity].
    + destruct (cc_trees s); [reflexivity|rewrite Hw; reflexivity].
Qed.
