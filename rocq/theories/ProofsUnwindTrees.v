(** * ProofsUnwindTrees: the consumers of a collection's pipeline after panics. *)
From Verif Require Import Prelim PrelimFacts Spec SpecFacts ModelNode ModelUnwind SpecUnwind SpecPipe SpecUnwindPipe SpecUnwindTrees ModelPipe ModelPipeColl ModelUnwindPipe
  ModelUnwindTrees PipeCore PipeEnd ProofsPipeColl.

Lemma yields_cons {S A} (next : nat -> S -> Res (option A * S)) s s' o l :
  (fun f => next f s) ⇓ Ok (Some o, s') -> yields next s' l -> yields next s (o :: l).
Proof.
  intros Hn Hy [|k]; [exists s; apply calls_0|].
  destruct (Hy k) as (s2 & Hc); exists s2; cbn [seq map nth_error].
  rewrite <- seq_shift, map_map; eapply calls_S; [exact Hn|exact Hc].
Qed.

Lemma skipn_nth {X} (l : list X) : forall k, skipn k l = match nth_error l k with Some x => x :: skipn (S k) l | None => [] end.
Proof. induction l as [|y l IH]; intros [|k]; cbn; try reflexivity; apply IH. Qed.

Section Consumer.
  Context {A O C St Nd : Type} (P : pipe (result A)).
  Variables (start : C -> St) (must_close : St -> list N -> Res bool) (drained : St -> option C)
    (close_top : St -> Res (St + result O * C)) (push : St -> A -> list N -> Res St) (closure : St -> C).
  Variable L : list (result A * pos Nd).
  Variable pok : list N -> pos Nd -> Prop.
  Hypothesis HL : forall k, exists s', calls (p_next P) k (p_init P) ⇓ Ok (map (nth_error (map fst L)) (seq 0 k), s') /\
    (forall i a x, k = S i -> nth_error L i = Some (Got a, x) -> pok (p_path P s') x).
  Variable rep : St -> list (A * pos Nd) -> Prop.
  Variable fits : result O -> result (list (A * pos Nd)) -> Prop.
  Notation cbody := (uclose_body must_close close_top).
  Notation dbody := (udrain_body drained close_top).
  Hypothesis Hstart : forall c, rep (start c) [].
  Hypothesis Hpush : forall st g p a x, rep st g -> pok p x -> g = [] \/ depth_each x <> 0 ->
    exists st1 st2, (fun f => loop (cbody p) f st) ⇓ Ok (inl st1) /\ push st1 a p = Ok st2 /\ rep st2 (g ++ [(a, x)]).
  Hypothesis Hout : forall st g p x, rep st g -> g <> [] -> pok p x -> depth_each x = 0 ->
    exists out c, (fun f => loop (cbody p) f st) ⇓ Ok (inr (Got out, c)) /\ fits (Got out) (Got g).
  Hypothesis Hdrain0 : forall st, rep st [] -> exists c, (fun f => loop dbody f st) ⇓ Ok (None, c).
  Hypothesis Hdrain : forall st g, rep st g -> g <> [] -> exists out c, (fun f => loop dbody f st) ⇓ Ok (Some (Got out), c) /\ fits (Got out) (Got g).
  Hypothesis HU : fits Unwound Unwound.

  Notation At k i := (calls (p_next P) k (p_init P) ⇓ Ok (map (nth_error (map fst L)) (seq 0 k), i)).

  Lemma at_step k i : At k i -> exists i', (fun f => p_next P f i) ⇓ Ok (option_map fst (nth_error L k), i') /\ At (S k) i' /\
    (forall a x, nth_error L k = Some (Got a, x) -> pok (p_path P i') x).
  Proof.
    intros Hk; assert (Hy : yields (p_next P) (p_init P) (map fst L)) by (intros j; destruct (HL j) as (s' & Hc & _); eauto).
    assert (Ha : after (p_next P) k (p_init P) i) by (eexists; exact Hk).
    pose proof (yields_after _ k _ _ i Hy Ha) as Hi.
    destruct (yields_step_inv _ _ _ Hi) as (i' & Hn & _).
    assert (E : hd_error (skipn k (map fst L)) = option_map fst (nth_error L k)).
    { rewrite skipn_nth, nth_error_map; destruct (nth_error L k); reflexivity. }
    rewrite E in Hn.
    assert (Hk' : At (S k) i').
    { rewrite seq_S, map_app; cbn [map plus]; rewrite nth_error_map; replace (S k) with (k + 1) by lia; eapply calls_app; [exact Hk|].
      eapply calls_S; [exact Hn|apply calls_0]. }
    exists i'; split; [exact Hn|split; [exact Hk'|]].
    intros a x Ex; destruct (HL (S k)) as (s' & Hc & Hp).
    pose proof (conv_fun _ _ _ Hk' Hc) as E2; injection E2 as ->; eapply Hp; [reflexivity|exact Ex].
  Qed.

  Definition holds (ahead : option A) (acc : list (A * pos Nd)) (i : p_state P) : Prop :=
    match ahead with None => acc = [] | Some a => exists x, acc = [(a, x)] /\ pok (p_path P i) x end.

  Notation ubody := (uconsume_body P must_close drained close_top push closure).
  Notation unext := (uconsume_next P start must_close drained close_top push closure).

  Lemma urun l : forall acc k i st, At k i -> skipn k L = l -> rep st acc ->
    exists o i' ahead' c' k' acc', (fun f => loop ubody f (i, None, st)) ⇓ Ok (o, (i', ahead', c')) /\ At k' i' /\ holds ahead' acc' i' /\
      match o with
      | None => handed acc l = [] /\ handed acc' (skipn k' L) = []
      | Some r => exists g, fits r g /\ handed acc l = g :: handed acc' (skipn k' L)
      end.
  Proof.
    induction l as [|[r x] l IH]; intros acc k i st Hk El Hr; destruct (at_step k i Hk) as (i' & Hn & Hk' & Hp);
      rewrite skipn_nth in El; destruct (nth_error L k) as [[r0 x0]|] eqn:En; try discriminate; cbn [option_map fst] in Hn.
    - assert (El' : skipn (S k) L = []).
      { apply nth_error_None in En; apply skipn_all2; lia. }
      destruct acc as [|y acc].
      + destruct (Hdrain0 st Hr) as (c & Hd).
        exists None, i', None, c, (S k), []; split; [|split; [exact Hk'|split; [reflexivity|rewrite El'; auto]]].
        apply loop_done; unfold uconsume_body; eapply conv_bind; [exact Hn|]; cbn; eapply conv_bind; [exact Hd|]; apply conv_ret.
      + destruct (Hdrain st _ Hr) as (out & c & Hd & Hf); [discriminate|].
        exists (Some (Got out)), i', None, c, (S k), []; split; [|split; [exact Hk'|split; [reflexivity|]]].
        * apply loop_done; unfold uconsume_body; eapply conv_bind; [exact Hn|]; cbn; eapply conv_bind; [exact Hd|]; apply conv_ret.
        * exists (Got (y :: acc)); rewrite El'; auto.
    - injection El as -> -> El.
      destruct r as [a|].
      + specialize (Hp a x eq_refl).
        assert (Hgo : acc = [] \/ depth_each x <> 0 ->
          exists o i'0 ahead' c' k' acc', (fun f => loop ubody f (i, None, st)) ⇓ Ok (o, (i'0, ahead', c')) /\ At k' i'0 /\ holds ahead' acc' i'0 /\
            match o with
            | None => handed (acc ++ [(a, x)]) l = [] /\ handed acc' (skipn k' L) = []
            | Some r => exists g, fits r g /\ handed (acc ++ [(a, x)]) l = g :: handed acc' (skipn k' L)
            end).
        { intros Hc; destruct (Hpush st acc _ a x Hr Hp Hc) as (st1 & st2 & Hl & Hq & Hr2).
          destruct (IH _ (S k) i' st2 Hk' El Hr2) as (o & i2 & ah & c & k2 & acc2 & Hloop & H2).
          exists o, i2, ah, c, k2, acc2; split; [|exact H2].
          eapply loop_step; [|exact Hloop].
          unfold uconsume_body; eapply conv_bind; [exact Hn|]; cbn; eapply conv_bind; [exact Hl|]; cbv beta iota; rewrite Hq; apply conv_ret. }
        destruct acc as [|y acc]; [exact (Hgo (or_introl eq_refl))|].
        cbn [handed]; destruct (depth_each x) as [|d] eqn:Ed; [|apply Hgo; right; discriminate].
        destruct (Hout st _ _ x Hr ltac:(discriminate) Hp Ed) as (out & c & Hl & Hf).
        exists (Some (Got out)), i', (Some a), c, (S k), [(a, x)]; split; [|split; [exact Hk'|split; [exists x; auto|]]].
        * apply loop_done; unfold uconsume_body; eapply conv_bind; [exact Hn|]; cbn; eapply conv_bind; [exact Hl|]; apply conv_ret.
        * exists (Got (y :: acc)); split; [exact Hf|subst l; reflexivity].
      + exists (Some Unwound), i', None, (closure st), (S k), []; split; [|split; [exact Hk'|split; [reflexivity|]]].
        * apply loop_done; unfold uconsume_body; eapply conv_bind; [exact Hn|]; cbn; apply conv_ret.
        * exists Unwound; split; [exact HU|subst l; reflexivity].
  Qed.

  Definition state_at (s : uconsumer (C := C) P) (l : list (result (list (A * pos Nd)))) : Prop :=
    exists k acc, At k (fst (fst s)) /\ holds (snd (fst s)) acc (fst (fst s)) /\ handed acc (skipn k L) = l.

  Lemma unext_step s l : state_at s l -> exists o s', (fun f => unext f s) ⇓ Ok (o, s') /\
    match o with
    | None => l = [] /\ state_at s' []
    | Some r => exists g l', fits r g /\ l = g :: l' /\ state_at s' l'
    end.
  Proof.
    intros (k & acc & Hk & Hh & El); destruct s as [[i ahead] c]; cbn [fst snd] in Hk, Hh.
    assert (Hfin : forall st, rep st acc -> exists o s', (fun f => loop ubody f (i, None, st)) ⇓ Ok (o, s') /\
      match o with
      | None => l = [] /\ state_at s' []
      | Some r => exists g l', fits r g /\ l = g :: l' /\ state_at s' l'
      end).
    { intros st Hr; destruct (urun _ acc k i st Hk eq_refl Hr) as (o & i' & ah & c' & k' & acc' & Hl & Hk' & Hh' & Ho).
      exists o, (i', ah, c'); split; [exact Hl|]; rewrite El in Ho.
      destruct o as [r|].
      - destruct Ho as (g & Hf & E); exists g, (handed acc' (skipn k' L)); split; [exact Hf|split; [exact E|]].
        exists k', acc'; auto.
      - destruct Ho as [E1 E2]; split; [exact E1|]; exists k', acc'; auto. }
    unfold uconsume_next; destruct ahead as [a|]; cbn [holds] in Hh.
    - destruct Hh as (x & -> & Hp).
      destruct (Hpush (start c) [] _ a x (Hstart c) Hp (or_introl eq_refl)) as (st1 & st2 & Hl & Hq & Hr2).
      destruct (Hfin st2 Hr2) as (o & s' & Hloop & H2); exists o, s'; split; [|exact H2].
      eapply loop_step; [|exact Hloop].
      unfold uconsume_body; cbn [bindR]; eapply conv_bind; [exact Hl|]; cbv beta iota; rewrite Hq; apply conv_ret.
    - subst acc; apply Hfin, Hstart.
  Qed.

  Lemma unext_yields l : forall s, state_at s l -> exists outs, yields unext s outs /\ Forall2 fits outs l.
  Proof.
    induction l as [|g l IH]; intros s Hs.
    - exists []; split; [|constructor].
      apply (step_inv_yields unext (fun s l => state_at s [] /\ l = [])); [|auto].
      clear s Hs; intros s l [Hs ->]; destruct (unext_step s [] Hs) as ([r|] & s' & Hn & Ho).
      + destruct Ho as (g & l' & _ & E & _); discriminate.
      + exists s'; split; [exact Hn|split; [apply Ho|reflexivity]].
    - destruct (unext_step s _ Hs) as ([r|] & s' & Hn & Ho); [|destruct Ho as [E _]; discriminate].
      destruct Ho as (g' & l' & Hf & E & Hs'); injection E as <- <-.
      destruct (IH s' Hs') as (outs & Hy & H2); exists (r :: outs); split; [|constructor; assumption].
      eapply yields_cons; eassumption.
  Qed.

  Lemma uconsume_yields c : exists outs, yields unext (uconsume_new P c) outs /\ Forall2 fits outs (handed [] L).
  Proof. apply unext_yields; exists 0, []; split; [apply calls_0|split; reflexivity]. Qed.
End Consumer.

(** ** Levels *)
Section Levels.
  Context {A : Type}.

  Fixpoint stk_lv (st : list (tree A)) : list (nat * A) :=
    match st with [] => [] | t :: rest => stk_lv rest ++ leveled (length rest) t end.
  Fixpoint room_after (room : nat) (l : list (nat * A)) : nat :=
    match l with [] => room | (d, _) :: l' => room_after (S (Nat.min room d)) l' end.

  Lemma settle_snoc l : forall room d a, settle room (l ++ [(d, a)]) = settle room l ++ [(Nat.min (room_after room l) d, a)].
  Proof. induction l as [|[e b] l IH]; intros room d a; cbn; [reflexivity|rewrite IH; reflexivity]. Qed.
  Lemma room_snoc l : forall room d a, room_after room (l ++ [(d, a)]) = S (Nat.min (room_after room l) d).
  Proof. induction l as [|[e b] l IH]; intros room d a; cbn; [reflexivity|apply IH]. Qed.
  Lemma room_nil l : room_after 0 l = 0 -> l = [].
  Proof.
    destruct l as [|x l] using rev_ind; [reflexivity|]; destruct x; rewrite room_snoc; discriminate.
  Qed.

  Lemma stk_close popped v cs rest : stk_lv (popped :: TNode v cs :: rest) = stk_lv (TNode v (cs ++ [popped]) :: rest).
  Proof.
    cbn [stk_lv leveled length]; rewrite flat_map_app; cbn [flat_map]; rewrite app_nil_r, <- !app_assoc; cbn [app]; reflexivity.
  Qed.

  Lemma leveled_flat d (ts : list (tree A)) : flat_map (leveled d) ts = concat (map (leveled d) ts).
  Proof. apply flat_map_concat_map. Qed.

  (** *** A tree is determined by its levels *)
  Definition low (d : nat) (r : list (nat * A)) : Prop := match r with [] => True | (e, _) :: _ => e < d end.

  Lemma leveled_cut (t : tree A) : forall d t' r r', low (S d) r -> low (S d) r' -> leveled d t ++ r = leveled d t' ++ r' -> t = t' /\ r = r'.
  Proof.
    induction t as [v ts IH] using tree_ind'; intros d [v' ts'] r r' Hr Hr' E; cbn in E; injection E as Ev E; subst v'.
    assert (H : forall ts', flat_map (leveled (S d)) ts ++ r = flat_map (leveled (S d)) ts' ++ r' -> ts = ts' /\ r = r').
    { clear E ts' v; induction ts as [|t ts IHts]; intros [|t' ts'] E; cbn in E.
      - auto.
      - exfalso; destruct t' as [w us]; cbn in E; subst r; cbn in Hr; lia.
      - exfalso; destruct t as [w us]; cbn in E; rewrite <- E in Hr'; cbn in Hr'; lia.
      - inversion IH as [|? ? H1 H2]; subst.
        rewrite <- !app_assoc in E.
        assert (L : forall us q, low (S d) q -> low (S (S d)) (flat_map (leveled (S d)) us ++ q)).
        { intros [|[w ws] us] q Hq; cbn; [destruct q as [|[e b] q]; cbn in *; [exact I|lia]|lia]. }
        destruct (H1 (S d) t' _ _ (L ts r Hr) (L ts' r' Hr') E) as [-> E2].
        destruct (IHts H2 ts' E2) as [-> ->]; auto. }
    destruct (H ts' E) as [-> ->]; auto.
  Qed.
  Lemma leveled_inj (t t' : tree A) d : leveled d t = leveled d t' -> t = t'.
  Proof. intros E; apply (leveled_cut t d t' [] [] I I); rewrite E; reflexivity. Qed.

  (** *** A whole tree is where it should be *)
  Lemma settle_leveled (t : tree A) : forall d room r, d <= room ->
    exists room', S d <= room' /\ settle room (leveled d t ++ r) = leveled d t ++ settle room' r.
  Proof.
    induction t as [v ts IH] using tree_ind'; intros d room r Hd; cbn.
    replace (Nat.min room d) with d by lia.
    assert (H : forall room, S d <= room -> exists room', S d <= room' /\ settle room (flat_map (leveled (S d)) ts ++ r) = flat_map (leveled (S d)) ts ++ settle room' r).
    { clear room Hd; induction ts as [|t ts IHts]; intros room Hd; cbn; [exists room; auto|].
      inversion IH as [|? ? H1 H2]; subst; rewrite <- !app_assoc.
      destruct (H1 (S d) room (flat_map (leveled (S d)) ts ++ r) Hd) as (room1 & Hr1 & ->).
      destruct (IHts H2 room1 ltac:(lia)) as (room2 & Hr2 & ->); exists room2; split; [exact Hr2|rewrite <- app_assoc; reflexivity]. }
    destruct (H (S d) (le_n _)) as (room' & Hr & ->); exists room'; auto.
  Qed.
  Lemma settle_tree (t : tree A) : settle 0 (leveled 0 t) = leveled 0 t.
  Proof. destruct (settle_leveled t 0 0 [] (le_n _)) as (room' & _ & E); rewrite !app_nil_r in E; exact E. Qed.
End Levels.

(** ** trees() *)
Section Trees.
  Context {A Nd : Type}.
  Notation must := (fun (st : list (tree A)) path => Ok (length path <=? length st)).
  Notation cbody := (uclose_body must (calmly (@trees_close A))).
  Notation dbody := (udrain_body is_nil (calmly (@trees_close A))).

  Lemma close_down p d st : length p = S d -> st = [] \/ d <> 0 ->
    exists st1, (fun f => loop (cbody p) f st) ⇓ Ok (inl st1) /\ stk_lv st1 = stk_lv st /\ length st1 = Nat.min (length st) d.
  Proof.
    intros Ep; remember (length st) as n eqn:En; revert st En; induction n as [n IH] using lt_wf_ind; intros st En Hd; subst n.
    destruct (S d <=? length st) eqn:E.
    - apply Nat.leb_le in E; destruct Hd as [->|Hd]; [cbn in E; lia|].
      destruct st as [|popped [|[v cs] rest]]; cbn in E; try lia.
      destruct (IH (S (length rest)) ltac:(cbn; lia) (TNode v (cs ++ [popped]) :: rest) eq_refl (or_intror Hd)) as (st1 & Hl & Es & El).
      exists st1; split; [|split; [rewrite stk_close; exact Es|cbn [length] in *; lia]].
      eapply loop_step; [|exact Hl]; apply conv_eq; intros f; unfold uclose_body; rewrite Ep; cbn [length bindR].
      replace (S d <=? S (S (length rest))) with true by (symmetry; apply Nat.leb_le; lia); reflexivity.
    - exists st; split; [|split; [reflexivity|apply Nat.leb_gt in E; lia]].
      apply loop_done, conv_eq; intros f; unfold uclose_body; rewrite Ep; cbn [bindR]; rewrite E; reflexivity.
  Qed.

  Lemma close_out p st : length p = 1 -> st <> [] ->
    exists t c, (fun f => loop (cbody p) f st) ⇓ Ok (inr (Got t, c)) /\ leveled 0 t = stk_lv st.
  Proof.
    intros Ep; remember (length st) as n eqn:En; revert st En; induction n as [n IH] using lt_wf_ind; intros st En Hd; subst n.
    destruct st as [|popped [|[v cs] rest]]; [congruence| |].
    - exists popped, tt; split; [|reflexivity].
      apply loop_done, conv_eq; intros f; unfold uclose_body; rewrite Ep; reflexivity.
    - destruct (IH (S (length rest)) ltac:(cbn; lia) (TNode v (cs ++ [popped]) :: rest) eq_refl ltac:(discriminate)) as (t & c & Hl & Es).
      exists t, c; split; [|rewrite stk_close; exact Es].
      eapply loop_step; [|exact Hl]; apply conv_eq; intros f; unfold uclose_body; rewrite Ep; reflexivity.
  Qed.

  Lemma drain_out st : st <> [] -> exists t c, (fun f => loop dbody f st) ⇓ Ok (Some (Got t), c) /\ leveled 0 t = stk_lv st.
  Proof.
    remember (length st) as n eqn:En; revert st En; induction n as [n IH] using lt_wf_ind; intros st En Hd; subst n.
    destruct st as [|popped [|[v cs] rest]]; [congruence| |].
    - exists popped, tt; split; [|reflexivity].
      apply loop_done, conv_eq; intros f; reflexivity.
    - destruct (IH (S (length rest)) ltac:(cbn; lia) (TNode v (cs ++ [popped]) :: rest) eq_refl ltac:(discriminate)) as (t & c & Hl & Es).
      exists t, c; split; [|rewrite stk_close; exact Es].
      eapply loop_step; [|exact Hl]; apply conv_eq; intros f; reflexivity.
  Qed.

  Definition trep (st : list (tree A)) (g : list (A * pos Nd)) : Prop :=
    stk_lv st = settle 0 (map item_level g) /\ length st = room_after 0 (map item_level g).
  Lemma trep_nonempty st g : trep st g -> g <> [] -> st <> [].
  Proof.
    intros [_ E] Hg ->; symmetry in E; cbn in E; apply room_nil, map_eq_nil in E; congruence.
  Qed.

  Definition pok_root (p : list N) (x : pos Nd) : Prop := length p = length (pos_path x) /\ pos_path x <> [].
  Lemma pok_root_depth p x : pok_root p x -> length p = S (depth_each x).
  Proof. intros [E Hn]; unfold depth_each; rewrite E; destruct (pos_path x); [congruence|reflexivity]. Qed.

  Lemma utrees_yield (P : pipe (result A)) (L : list (result A * pos Nd)) :
    (forall k, exists s', calls (p_next P) k (p_init P) ⇓ Ok (map (nth_error (map fst L)) (seq 0 k), s') /\
      (forall i a x, k = S i -> nth_error L i = Some (Got a, x) -> pok_root (p_path P s') x)) ->
    exists outs, yields (utrees_next P) (utrees_new P) outs /\ Forall2 made_of outs (handed [] L).
  Proof.
    intros HL.
    apply (uconsume_yields P (fun _ : unit => []) must is_nil (calmly (@trees_close A)) (fun st item _ => Ok (TNode item [] :: st)) (fun _ => tt) L pok_root HL trep made_of).
    - intros _; split; reflexivity.
    - intros st g p a x [E1 E2] Hp Hc; pose proof (pok_root_depth _ _ Hp) as Ep.
      assert (Hc' : st = [] \/ depth_each x <> 0).
      { destruct Hc as [->|Hc]; [left; destruct st; [reflexivity|discriminate E2]|auto]. }
      destruct (close_down p _ st Ep Hc') as (st1 & Hl & Es & El).
      exists st1, (TNode a [] :: st1); split; [exact Hl|split; [reflexivity|]].
      unfold trep; rewrite map_app; cbn [map]; unfold item_level at 2 4; cbn [fst snd]; rewrite settle_snoc, room_snoc, <- E2, <- E1.
      cbn [stk_lv leveled flat_map length]; rewrite Es, El; auto.
    - intros st g p x Hr Hg Hp Hd; pose proof (pok_root_depth _ _ Hp) as Ep; rewrite Hd in Ep.
      destruct (close_out p st Ep (trep_nonempty _ _ Hr Hg)) as (t & c & Hl & Et).
      exists t, c; split; [exact Hl|]; cbn; rewrite Et; apply Hr.
    - intros st [_ E]; destruct st; [|discriminate E]; exists tt; apply loop_done, conv_eq; reflexivity.
    - intros st g Hr Hg; destruct (drain_out st (trep_nonempty _ _ Hr Hg)) as (t & c & Hl & Et).
      exists t, c; split; [exact Hl|]; cbn; rewrite Et; apply Hr.
    - exact I.
  Qed.
End Trees.

(** ** The trees that come out whole *)
Definition as_got {A X} (ax : A * X) : result A * X := (Got (fst ax), snd ax).

Lemma sublist_skips {X} (pre l1 l2 : list X) : sublist l1 l2 -> sublist l1 (pre ++ l2).
Proof. intros H; induction pre; cbn; [exact H|constructor; exact IHpre]. Qed.
Lemma sublist_nil {X} (l : list X) : sublist [] l.
Proof. induction l; constructor; assumption. Qed.
Lemma sublist_Forall2 {X Y} (R : X -> Y -> Prop) xs ys ys' : Forall2 R xs ys -> sublist ys' ys -> exists xs', sublist xs' xs /\ Forall2 R xs' ys'.
Proof.
  intros HF Hs; revert xs HF; induction Hs as [|y l1 l2 Hs IH|y l1 l2 Hs IH]; intros xs HF; inversion HF; subst.
  - exists []; split; constructor.
  - destruct (IH _ H3) as (xs' & H1' & H2'); exists xs'; split; [constructor|]; assumption.
  - destruct (IH _ H3) as (xs' & H1' & H2'); exists (x :: xs'); split; constructor; assumption.
Qed.

Section Spared.
  Context {A Nd T U : Type} (items : T -> list (result A * pos Nd)) (calm : T -> option U) (root : T -> result A).
  Variable Q : U -> list (A * pos Nd) -> Prop.

  Definition whole (t : T) : Prop :=
    (exists x l, items t = (root t, x) :: l /\ depth_each x = 0) /\
    forall u, calm t = Some u -> exists a x g, items t = map as_got ((a, x) :: g) /\ Forall (fun ax => depth_each (snd ax) <> 0) g /\ Q u ((a, x) :: g).

  Lemma handed_inside g : forall acc l, acc <> [] -> Forall (fun ax : A * pos Nd => depth_each (snd ax) <> 0) g ->
    handed acc (map as_got g ++ l) = handed (acc ++ g) l.
  Proof.
    induction g as [|[a x] g IH]; intros acc l Ha Hg; cbn [map app]; [rewrite app_nil_r; reflexivity|].
    inversion Hg as [|? ? H1 H2]; subst; unfold as_got at 1; cbn [fst snd handed].
    destruct acc as [|y acc]; [congruence|].
    cbn in H1; destruct (depth_each x); [congruence|].
    rewrite IH; [|discriminate|exact H2]; rewrite <- app_assoc; reflexivity.
  Qed.
  Lemma handed_split l1 l2 : forall acc : list (A * pos Nd), exists pre acc', handed acc (l1 ++ l2) = pre ++ handed acc' l2.
  Proof.
    induction l1 as [|[[a|] x] l1 IH]; intros acc; cbn.
    - exists [], acc; reflexivity.
    - destruct acc as [|y acc]; [apply IH|]; destruct (depth_each x); [|apply IH].
      destruct (IH [(a, x)]) as (pre & acc' & ->); exists (Got (y :: acc) :: pre), acc'; reflexivity.
    - destruct (IH []) as (pre & acc' & ->); exists (Unwound :: pre), acc'; reflexivity.
  Qed.
  Lemma handed_out acc (L : list (result A * pos Nd)) : acc <> [] ->
    match L with [] => True | (r, x) :: _ => r <> Unwound /\ depth_each x = 0 end -> handed acc L = Got acc :: handed [] L.
  Proof.
    intros Ha HL; destruct acc as [|y acc]; [congruence|]; destruct L as [|[[a|] x] L]; [reflexivity| |destruct HL as [HL _]; congruence].
    destruct HL as [_ Hd]; cbn; rewrite Hd; reflexivity.
  Qed.

  Lemma spared_handed ts : Forall whole ts -> forall acc,
    exists gs, sublist (map Got gs) (handed acc (flat_map items ts)) /\ Forall2 Q (spared calm root ts) gs.
  Proof.
    induction 1 as [|t ts Ht Hts IH]; intros acc; [exists []; split; [apply sublist_nil|constructor]|].
    cbn [flat_map].
    assert (Hskip : exists gs, sublist (map Got gs) (handed acc (items t ++ flat_map items ts)) /\ Forall2 Q (spared calm root ts) gs).
    { destruct (handed_split (items t) (flat_map items ts) acc) as (pre & acc' & ->).
      destruct (IH acc') as (gs & H1 & H2); exists gs; split; [apply sublist_skips|]; assumption. }
    destruct Ht as [(x0 & l0 & E0 & Hx0) Hcalm].
    cbn [spared]; destruct (calm t) as [u|] eqn:Ec; [|exact Hskip].
    assert (Htake : match flat_map items ts with [] => True | (r, x) :: _ => r <> Unwound /\ depth_each x = 0 end ->
      exists gs, sublist (map Got gs) (handed acc (items t ++ flat_map items ts)) /\ Forall2 Q (u :: spared calm root ts) gs).
    { intros Hn; destruct (Hcalm u eq_refl) as (a & x & g & Ei & Hg & Hq).
      assert (E : handed [] (items t ++ flat_map items ts) = Got ((a, x) :: g) :: handed [] (flat_map items ts)).
      { rewrite Ei; cbn [map app]; unfold as_got at 1; cbn [fst snd handed app].
        rewrite handed_inside; [|discriminate|exact Hg]; apply handed_out; [discriminate|exact Hn]. }
      destruct (IH []) as (gs & H1 & H2); exists (((a, x) :: g) :: gs); split; [|constructor; assumption].
      destruct acc as [|y acc]; [rewrite E; cbn; constructor; exact H1|].
      rewrite handed_out; [rewrite E; cbn; constructor; constructor; exact H1|discriminate|].
      assert (Er : root t = Got a /\ x0 = x) by (rewrite E0 in Ei; cbn in Ei; unfold as_got in Ei; cbn in Ei; injection Ei as E1 E2 _; auto).
      rewrite E0; cbn; destruct Er as [-> _]; split; [discriminate|exact Hx0]. }
    destruct ts as [|t' ts]; [exact (Htake I)|].
    inversion Hts as [|? ? [(x1 & l1 & E1 & Hx1) _] _]; subst.
    destruct (root t') as [b|] eqn:Er; [|exact Hskip].
    apply Htake; cbn [flat_map]; rewrite E1; cbn; split; [discriminate|exact Hx1].
  Qed.

  Lemma calm_handed ts : Forall whole ts -> forall us, map calm ts = map Some us ->
    exists gs, handed [] (flat_map items ts) = map Got gs /\ Forall2 Q us gs.
  Proof.
    induction 1 as [|t ts Ht Hts IH]; intros [|u us] E; try discriminate; [exists []; split; [reflexivity|constructor]|].
    injection E as Eu E; destruct (IH us E) as (gs & Eg & HQ).
    destruct Ht as [_ Hcalm]; destruct (Hcalm u Eu) as (a & x & g & Ei & Hg & Hq).
    exists (((a, x) :: g) :: gs); split; [|constructor; assumption].
    cbn [flat_map]; rewrite Ei; cbn [map app]; unfold as_got at 1; cbn [fst snd handed app].
    rewrite handed_inside; [|discriminate|exact Hg]; cbn [app]; rewrite handed_out; [rewrite Eg; reflexivity|discriminate|].
    destruct ts as [|t' ts]; [exact I|].
    inversion Hts as [|? ? [(x1 & l1 & E1 & Hx1) Hc'] _]; subst; destruct us as [|u' us]; [discriminate|]; injection E as Eu' _.
    destruct (Hc' u' Eu') as (b & y & g' & Ei' & _); cbn [flat_map]; rewrite Ei' in *; cbn in E1 |- *.
    injection E1 as _ <- _; split; [discriminate|exact Hx1].
  Qed.

  Lemma spared_whole {O} (fits : result O -> result (list (A * pos Nd)) -> Prop) (mk : U -> O) ts outs : Forall whole ts ->
    (forall o u g, fits o (Got g) -> Q u g -> o = Got (mk u)) ->
    Forall2 fits outs (handed [] (flat_map items ts)) -> sublist (map Got (map mk (spared calm root ts))) outs.
  Proof.
    intros Hw Hf HF; destruct (spared_handed ts Hw []) as (gs & Hs & HQ).
    destruct (sublist_Forall2 _ _ _ _ HF Hs) as (outs' & Hs' & HF').
    replace (map Got (map mk (spared calm root ts))) with outs'; [exact Hs'|].
    clear - HQ HF' Hf; revert outs' HF'; induction HQ as [|u g us gs Hq HQ IH]; intros outs' HF'; inversion HF'; subst; [reflexivity|].
    cbn; f_equal; [eapply Hf; eassumption|apply IH; assumption].
  Qed.
End Spared.

(** *** n-ary trees *)
Local Arguments all_some : simpl never.
Section SparedNary.
  Context {A Nd : Type}.
  Notation depths := (depth_ok (A := result A) (@depth_each Nd)).

  Lemma all_some_cons {X} (o : option X) l us : all_some (o :: l) = Some us -> exists u us', o = Some u /\ all_some l = Some us' /\ us = u :: us'.
  Proof. unfold all_some; cbn [fold_right]; fold (all_some l); destruct o as [u|]; [|discriminate]; destruct (all_some l) as [us'|]; [|discriminate]; intros E; injection E as <-; eauto. Qed.

  Lemma calm_items (t : tree (result A * pos Nd)) : forall d u, depths d t -> calm t = Some u ->
    exists g, preorder t = map as_got g /\ map item_level g = leveled d u.
  Proof.
    induction t as [[r x] ts IH] using tree_ind'; intros d u Hd Hc; apply depth_ok_node in Hd as [Hx Hd].
    destruct r as [a|]; cbn in Hc; [|discriminate].
    destruct (all_some (map calm ts)) as [us|] eqn:Es; [|discriminate]; injection Hc as <-.
    assert (H : forall us, all_some (map calm ts) = Some us -> exists g, flat_map preorder ts = map as_got g /\ map item_level g = flat_map (leveled (S d)) us).
    { clear us Es; induction ts as [|t ts IHts]; intros us Es; [injection Es as <-; exists []; auto|].
      inversion IH as [|? ? H1 H2]; inversion Hd as [|? ? H3 H4]; subst; cbn [map] in Es.
      apply all_some_cons in Es as (u & us' & Eu & Es & ->).
      destruct (H1 _ _ H3 Eu) as (g1 & P1 & L1); destruct (IHts H2 H4 us' Es) as (g2 & P2 & L2).
      exists (g1 ++ g2); cbn; rewrite !map_app, P1, P2, L1, L2; auto. }
    destruct (H us Es) as (g & P & L); exists ((a, x) :: g); cbn; rewrite P, L; split; [reflexivity|].
    unfold item_level; cbn; rewrite Hx; reflexivity.
  Qed.

  Lemma leveled_deep {B} (t : tree B) : forall d, Forall (fun eb => d <= fst eb) (leveled d t).
  Proof.
    induction t as [v ts IH] using tree_ind'; intros d; cbn; constructor; [cbn; lia|].
    apply Forall_flat_map; eapply Forall_impl; [|exact IH]; cbn; intros t Ht.
    eapply Forall_impl; [|apply (Ht (S d))]; cbn; intros; lia.
  Qed.

  Definition tree_is (u : tree A) (g : list (A * pos Nd)) : Prop := map item_level g = leveled 0 u.
  Lemma whole_nary (t : tree (result A * pos Nd)) : depths 0 t -> whole preorder calm root_of tree_is t.
  Proof.
    intros Hd; split.
    - destruct t as [[r x] ts]; apply depth_ok_node in Hd as [Hx _]; exists x, (flat_map preorder ts); auto.
    - intros u Hc; destruct (calm_items t 0 u Hd Hc) as (g & P & L).
      destruct g as [|[a x] g]; [destruct t; discriminate P|].
      exists a, x, g; split; [exact P|split; [|exact L]].
      destruct u as [v us]; cbn [map leveled] in L; injection L as _ _ L.
      assert (HF : Forall (fun eb => 1 <= fst eb) (map (@item_level A Nd) g)).
      { rewrite L; apply Forall_flat_map, Forall_forall; intros w _; apply leveled_deep. }
      rewrite Forall_map in HF; eapply Forall_impl; [|exact HF]; unfold item_level; cbn; intros; lia.
  Qed.
  Lemma made_whole (o : result (tree A)) u (g : list (A * pos Nd)) : made_of o (Got g) -> tree_is u g -> o = Got u.
  Proof.
    unfold made_of, tree_is; destruct o as [t|]; [|tauto]; intros H1 H2; rewrite H2, settle_tree in H1.
    f_equal; eapply leveled_inj; exact H1.
  Qed.
End SparedNary.

(** ** Binary trees *)
Section BTrees.
  Context {A Nd : Type}.
  Notation must := (fun (st : list (N * btree A)) path => Ok (length path <=? length st)).
  Notation cbody := (uclose_body must (calmly (@btrees_close A))).
  Notation dbody := (udrain_body is_nil (calmly (@btrees_close A))).

  Definition slot_of (t : tree (nat * A)) : nat := match t with TNode (i, _) _ => i end.
  Definition enc (t : tree (nat * A)) : N * btree A := (N.of_nat (slot_of t), sides t).
  (** All but the one at the bottom can be put below another node. *)
  Definition sided (st : list (tree (nat * A))) : Prop := Forall (fun t => slot_of t <= 1) (removelast st).

  Lemma sides_add i v cs t : slot_of t <= 1 ->
    set_child (N.of_nat (slot_of t)) (sides (TNode (i, v) cs)) (sides t) = Ok (sides (TNode (i, v) (cs ++ [t]))).
  Proof.
    intros Ht; cbn [sides set_child]; rewrite !fold_left_app; cbn [fold_left].
    destruct t as [[j w] ts]; cbn [slot_of] in *; destruct j as [|[|j]]; [reflexivity|reflexivity|lia].
  Qed.
  Lemma bclose popped v cs rest : sided (popped :: TNode v cs :: rest) ->
    calmly (@btrees_close A) (map enc (popped :: TNode v cs :: rest)) = Ok (inl (map enc (TNode v (cs ++ [popped]) :: rest))) /\
    sided (TNode v (cs ++ [popped]) :: rest).
  Proof.
    intros Hs; unfold sided in *; cbn [removelast] in Hs; inversion Hs as [|? ? H1 H2]; subst; split.
    - destruct v as [i v]; unfold calmly; cbn [map]; unfold enc at 1 2; cbn [btrees_close]; rewrite sides_add by exact H1; cbn [bindR]; reflexivity.
    - destruct v as [i v]; cbn [removelast]; destruct rest; [constructor|]; inversion H2; subst; constructor; assumption.
  Qed.

  Lemma bclose_down p d st : length p = S d -> st = [] \/ d <> 0 -> sided st ->
    exists st1, (fun f => loop (cbody p) f (map enc st)) ⇓ Ok (inl (map enc st1)) /\ stk_lv st1 = stk_lv st /\ length st1 = Nat.min (length st) d /\ sided st1.
  Proof.
    intros Ep; remember (length st) as n eqn:En; revert st En; induction n as [n IH] using lt_wf_ind; intros st En Hd Hs; subst n.
    destruct (S d <=? length st) eqn:E.
    - apply Nat.leb_le in E; destruct Hd as [->|Hd]; [cbn in E; lia|].
      destruct st as [|popped [|[v cs] rest]]; cbn in E; try lia.
      destruct (bclose _ _ _ _ Hs) as [Eb Hs'].
      destruct (IH (S (length rest)) ltac:(cbn; lia) (TNode v (cs ++ [popped]) :: rest) eq_refl (or_intror Hd) Hs') as (st1 & Hl & Es & El & Hs1).
      exists st1; split; [|split; [rewrite stk_close; exact Es|split; [cbn [length] in *; lia|exact Hs1]]].
      eapply loop_step; [|exact Hl]; apply conv_eq; intros f; unfold uclose_body; rewrite Ep, map_length; cbn [length bindR].
      replace (S d <=? S (S (length rest))) with true by (symmetry; apply Nat.leb_le; lia); rewrite Eb; reflexivity.
    - exists st; split; [|split; [reflexivity|split; [apply Nat.leb_gt in E; lia|exact Hs]]].
      apply loop_done, conv_eq; intros f; unfold uclose_body; rewrite Ep, map_length; cbn [bindR]; rewrite E; reflexivity.
  Qed.

  Lemma bclose_out p st : length p = 1 -> st <> [] -> sided st ->
    exists t c, (fun f => loop (cbody p) f (map enc st)) ⇓ Ok (inr (Got (sides t), c)) /\ leveled 0 t = stk_lv st.
  Proof.
    intros Ep; remember (length st) as n eqn:En; revert st En; induction n as [n IH] using lt_wf_ind; intros st En Hd Hs; subst n.
    destruct st as [|popped [|[v cs] rest]]; [congruence| |].
    - exists popped, tt; split; [|reflexivity].
      apply loop_done, conv_eq; intros f; unfold uclose_body; rewrite Ep; reflexivity.
    - destruct (bclose _ _ _ _ Hs) as [Eb Hs'].
      destruct (IH (S (length rest)) ltac:(cbn; lia) (TNode v (cs ++ [popped]) :: rest) eq_refl ltac:(discriminate) Hs') as (t & c & Hl & Es).
      exists t, c; split; [|rewrite stk_close; exact Es].
      eapply loop_step; [|exact Hl]; apply conv_eq; intros f; unfold uclose_body; rewrite Ep, map_length; cbn [length Nat.leb bindR]; rewrite Eb; reflexivity.
  Qed.

  Lemma bdrain_out st : st <> [] -> sided st -> exists t c, (fun f => loop dbody f (map enc st)) ⇓ Ok (Some (Got (sides t)), c) /\ leveled 0 t = stk_lv st.
  Proof.
    remember (length st) as n eqn:En; revert st En; induction n as [n IH] using lt_wf_ind; intros st En Hd Hs; subst n.
    destruct st as [|popped [|[v cs] rest]]; [congruence| |].
    - exists popped, tt; split; [|reflexivity].
      apply loop_done, conv_eq; intros f; reflexivity.
    - destruct (bclose _ _ _ _ Hs) as [Eb Hs'].
      destruct (IH (S (length rest)) ltac:(cbn; lia) (TNode v (cs ++ [popped]) :: rest) eq_refl ltac:(discriminate) Hs') as (t & c & Hl & Es).
      exists t, c; split; [|rewrite stk_close; exact Es].
      eapply loop_step; [|exact Hl]; apply conv_eq; intros f; unfold udrain_body; cbn [map is_nil]; cbn [map] in Eb; rewrite Eb; reflexivity.
  Qed.

  Definition btrep (bst : list (N * btree A)) (g : list (A * pos Nd)) : Prop :=
    exists st, bst = map enc st /\ sided st /\ stk_lv st = settle 0 (map item_side g) /\ length st = room_after 0 (map item_side g).

  (** The path is that of the node, and a node that is not a root is a left or a right child. *)
  Definition pok_side (p : list N) (x : pos Nd) : Prop :=
    p = map N.of_nat (pos_path x) /\ pos_path x <> [] /\ (depth_each x <> 0 -> last (pos_path x) 0 <= 1).
  Lemma pok_side_depth p x : pok_side p x -> length p = S (depth_each x).
  Proof. intros (E & Hn & _); unfold depth_each; rewrite E, map_length; destruct (pos_path x); [congruence|reflexivity]. Qed.
  Lemma pok_side_last p x : pok_side p x -> last_seg p = Ok (N.of_nat (last (pos_path x) 0)).
  Proof.
    intros (E & Hn & _); unfold last_seg; rewrite E; destruct (pos_path x) as [|i q _] using rev_ind; [congruence|].
    rewrite map_app, rev_app_distr, last_last; reflexivity.
  Qed.

  Lemma ubtrees_yield (P : pipe (result A)) (L : list (result A * pos Nd)) :
    (forall k, exists s', calls (p_next P) k (p_init P) ⇓ Ok (map (nth_error (map fst L)) (seq 0 k), s') /\
      (forall i a x, k = S i -> nth_error L i = Some (Got a, x) -> pok_side (p_path P s') x)) ->
    exists outs, yields (ubtrees_next P) (utrees_new P) outs /\ Forall2 bmade_of outs (handed [] L).
  Proof.
    intros HL.
    apply (uconsume_yields P (fun _ : unit => []) must is_nil (calmly (@btrees_close A))
      (fun st item path => slot <- last_seg path ;; Ok ((slot, BNode item None None) :: st)) (fun _ => tt) L pok_side HL btrep bmade_of).
    - intros _; exists []; repeat split; constructor.
    - intros bst g p a x (st & -> & Hs & E1 & E2) Hp Hc; pose proof (pok_side_depth _ _ Hp) as Ep.
      assert (Hc' : st = [] \/ depth_each x <> 0).
      { destruct Hc as [->|Hc]; [left; destruct st; [reflexivity|discriminate E2]|auto]. }
      destruct (bclose_down p _ st Ep Hc' Hs) as (st1 & Hl & Es & El & Hs1).
      exists (map enc st1), (map enc (TNode (last (pos_path x) 0, a) [] :: st1)); split; [exact Hl|split].
      + rewrite (pok_side_last _ _ Hp); reflexivity.
      + eexists; split; [reflexivity|split].
        * unfold sided; cbn [removelast]; destruct st1 as [|y st1]; [constructor|]; constructor; [|exact Hs1].
          cbn; apply Hp; destruct Hc' as [->|Hc']; [discriminate El|exact Hc'].
        * rewrite map_app; cbn [map]; unfold item_side at 2 4; cbn [fst snd]; rewrite settle_snoc, room_snoc, <- E2, <- E1.
          cbn [stk_lv leveled flat_map length]; rewrite Es, El; auto.
    - intros bst g p x (st & -> & Hs & E1 & E2) Hg Hp Hd; pose proof (pok_side_depth _ _ Hp) as Ep; rewrite Hd in Ep.
      assert (Hst : st <> []) by (intros ->; symmetry in E2; cbn in E2; apply room_nil, map_eq_nil in E2; congruence).
      destruct (bclose_out p st Ep Hst Hs) as (t & c & Hl & Et).
      exists (sides t), c; split; [exact Hl|]; cbn; exists t; split; [reflexivity|rewrite Et; exact E1].
    - intros bst (st & -> & _ & _ & E); destruct st; [|discriminate E]; exists tt; apply loop_done, conv_eq; reflexivity.
    - intros bst g (st & -> & Hs & E1 & E2) Hg.
      assert (Hst : st <> []) by (intros ->; symmetry in E2; cbn in E2; apply room_nil, map_eq_nil in E2; congruence).
      destruct (bdrain_out st Hst Hs) as (t & c & Hl & Et).
      exists (sides t), c; split; [exact Hl|]; cbn; exists t; split; [reflexivity|rewrite Et; exact E1].
    - exact I.
  Qed.

  (** *** The trees that come out whole *)
  Fixpoint lab (i : nat) (t : btree A) : tree (nat * A) :=
    match t with
    | BNode a l r => TNode (i, a) (match l with Some t => [lab 0 t] | None => [] end ++ match r with Some t => [lab 1 t] | None => [] end)
    end.
  Lemma lab_slot i t : slot_of (lab i t) = i.
  Proof. destruct t; reflexivity. Qed.
  Lemma sides_lab t : forall i, sides (lab i t) = t.
  Proof.
    induction t as [a l r IHl IHr] using btree_ind'; intros i; cbn [lab sides]; rewrite !fold_left_app.
    destruct l as [l|], r as [r|]; cbn [fold_left]; cbn in IHl, IHr; f_equal;
      try (pose proof (IHl 0) as E; pose proof (lab_slot 0 l) as S0; destruct (lab 0 l) as [[j w] ts]; cbn [slot_of] in S0; subst j);
      try (pose proof (IHr 1) as E'; pose proof (lab_slot 1 r) as S1; destruct (lab 1 r) as [[j' w'] ts']; cbn [slot_of] in S1; subst j');
      cbn [Nat.eqb]; congruence.
  Qed.

  Lemma bcalm_items (t : btree (result A * pos Nd)) : forall p u, bbelow p t -> p <> [] -> bcalm t = Some u ->
    exists g, preorder (flat t) = map as_got g /\ map item_side g = leveled (pred (length p)) (lab (last p 0) u).
  Proof.
    induction t as [[r x] l rr IHl IHr] using btree_ind'; intros p u (Hx & Hl & Hr) Hp Hc.
    destruct r as [a|]; cbn in Hc; [|discriminate].
    assert (Hside : forall (o : option (btree (result A * pos Nd))) i uo,
      OForall (fun t => forall p u, bbelow p t -> p <> [] -> bcalm t = Some u ->
        exists g, preorder (flat t) = map as_got g /\ map item_side g = leveled (pred (length p)) (lab (last p 0) u)) o ->
      match o with Some t => bbelow (p ++ [i]) t | None => True end ->
      match o with None => Some None | Some t => option_map Some (bcalm t) end = Some uo ->
      exists g, flat_map preorder (match o with Some t => [flat t] | None => [] end) = map as_got g /\
        map item_side g = flat_map (leveled (S (pred (length p)))) (match uo with Some t => [lab i t] | None => [] end)).
    { intros [t|] i uo IH Hb Ho; [|injection Ho as <-; exists []; auto].
      destruct (bcalm t) as [v|] eqn:Ev; [|discriminate]; injection Ho as <-.
      destruct (IH (p ++ [i]) v Hb ltac:(destruct p; discriminate) Ev) as (g & P & L); exists g; cbn; rewrite !app_nil_r; split; [exact P|].
      rewrite L, last_last, app_length; destruct p; [congruence|]; cbn; rewrite Nat.add_1_r; reflexivity. }
    destruct (match l with None => Some None | Some t => option_map Some (bcalm t) end) as [ul|] eqn:El; [|discriminate].
    destruct (match rr with None => Some None | Some t => option_map Some (bcalm t) end) as [ur|] eqn:Er; [|discriminate].
    injection Hc as <-.
    destruct (Hside l 0 ul IHl Hl El) as (g1 & P1 & L1); destruct (Hside rr 1 ur IHr Hr Er) as (g2 & P2 & L2).
    exists ((a, x) :: g1 ++ g2); cbn [flat preorder map]; rewrite flat_map_app; cbn [lab leveled]; rewrite flat_map_app, !map_app, <- P1, <- P2, L1, L2.
    split; [|unfold item_side; cbn; unfold depth_each; rewrite Hx; reflexivity].
    cbn; f_equal; destruct l, rr; reflexivity.
  Qed.

  Definition btree_is (u : btree A) (g : list (A * pos Nd)) : Prop := exists i, map item_side g = leveled 0 (lab i u).
  Lemma whole_binary (t : btree (result A * pos Nd)) : (exists i, bbelow [i] t) -> whole (fun t => preorder (flat t)) bcalm broot_of btree_is t.
  Proof.
    intros (i & Hb); split.
    - destruct t as [[r x] l rr]; destruct Hb as [Hx _]; eexists x, _; split; [reflexivity|unfold depth_each; rewrite Hx; reflexivity].
    - intros u Hc; destruct (bcalm_items t [i] u Hb ltac:(discriminate) Hc) as (g & P & L); cbn in L.
      destruct g as [|[a x] g]; [destruct t as [[r x] l rr]; discriminate P|].
      exists a, x, g; split; [exact P|split; [|exists i; exact L]].
      destruct u as [v ul ur]; cbn [map lab leveled] in L; injection L as _ _ _ L.
      assert (HF : Forall (fun eb => 1 <= fst eb) (map (@item_side A Nd) g)).
      { rewrite L; apply Forall_flat_map, Forall_forall; intros w _; apply leveled_deep. }
      rewrite Forall_map in HF; eapply Forall_impl; [|exact HF]; unfold item_side; cbn; intros; lia.
  Qed.
  Lemma bmade_whole (o : result (btree A)) u (g : list (A * pos Nd)) : bmade_of o (Got g) -> btree_is u g -> o = Got u.
  Proof.
    unfold bmade_of, btree_is; destruct o as [t|]; [|tauto]; intros (w & -> & H1) (i & H2); rewrite H2, settle_tree in H1.
    apply leveled_inj in H1; subst w; rewrite sides_lab; reflexivity.
  Qed.
End BTrees.

(** ** Folds *)
Lemma deeper_len n (p : list N) d : length p = S d -> deeper n p = Ok (S d <=? n).
Proof.
  intros E; unfold deeper, coll_depth; destruct p as [|i p]; [discriminate|]; injection E as E; cbn [bindR]; rewrite E; f_equal.
  apply eq_true_iff_eq; rewrite N.ltb_lt, Nat.leb_le; lia.
Qed.

Section Folds.
  Context {A Nd G O : Type}.
  Variables (f : G -> list O -> A -> G * option O) (h : list O -> A -> O).
  Hypothesis Hf : forall g os v, snd (f g os v) = Some (h os v).
  Notation must := (fun (st : @cfold_st A G O) path => deeper (length (snd st)) path).
  Notation cbody := (uclose_body must (ucfold_close f)).
  Notation dr := (fun st : @cfold_st A G O => match snd st with [] => Some (fst (fst st)) | _ => None end).
  Notation dbody := (udrain_body dr (ucfold_close f)).

  Definition root_value (t : tree A) : A := match t with TNode v _ => v end.
  Definition kids_folded (t : tree A) : list O := match t with TNode _ ts => map (fold_value h) ts end.
  Definition fenc (g : G) (ts : list (tree A)) : @cfold_st A G O := (g, map root_value ts, map kids_folded ts).

  Lemma fclose g popped v cs rest : exists g', ucfold_close f (fenc g (popped :: TNode v cs :: rest)) = Ok (inl (fenc g' (TNode v (cs ++ [popped]) :: rest))).
  Proof.
    unfold fenc; cbn [map ucfold_close].
    pose proof (Hf g (kids_folded popped) (root_value popped)) as E; destruct (f g (kids_folded popped) (root_value popped)) as [g' o]; cbn in E; subst o.
    exists g'; unfold ucfold_close; cbn [kids_folded root_value]; rewrite map_app; destruct popped; reflexivity.
  Qed.
  Lemma fclose1 g t : exists g', ucfold_close f (fenc g [t]) = Ok (inr (Got (fold_value h t), g')).
  Proof.
    unfold fenc; cbn [map ucfold_close].
    pose proof (Hf g (kids_folded t) (root_value t)) as E; destruct (f g (kids_folded t) (root_value t)) as [g' o]; cbn in E; subst o.
    exists g'; destruct t; reflexivity.
  Qed.

  Lemma fclose_down p d ts : length p = S d -> ts = [] \/ d <> 0 -> forall g,
    exists g1 ts1, (fun fu => loop (cbody p) fu (fenc g ts)) ⇓ Ok (inl (fenc g1 ts1)) /\ stk_lv ts1 = stk_lv ts /\ length ts1 = Nat.min (length ts) d.
  Proof.
    intros Ep; remember (length ts) as n eqn:En; revert ts En; induction n as [n IH] using lt_wf_ind; intros ts En Hd g; subst n.
    destruct (S d <=? length ts) eqn:E.
    - pose proof E as Eb; apply Nat.leb_le in E; destruct Hd as [->|Hd]; [cbn in E; lia|].
      destruct ts as [|popped [|[v cs] rest]]; cbn in E; try lia.
      destruct (fclose g popped v cs rest) as (g' & Ec).
      destruct (IH (S (length rest)) ltac:(cbn; lia) (TNode v (cs ++ [popped]) :: rest) eq_refl (or_intror Hd) g') as (g1 & ts1 & Hl & Es & El).
      exists g1, ts1; split; [|split; [rewrite stk_close; exact Es|cbn [length] in *; lia]].
      eapply loop_step; [|exact Hl]; apply conv_eq; intros fu; unfold uclose_body; rewrite (deeper_len _ _ _ Ep).
      unfold fenc at 1; cbn [snd]; rewrite map_length, Eb; cbn [bindR]; rewrite Ec; reflexivity.
    - exists g, ts; split; [|split; [reflexivity|apply Nat.leb_gt in E; lia]].
      apply loop_done, conv_eq; intros fu; unfold uclose_body; rewrite (deeper_len _ _ _ Ep); unfold fenc at 1; cbn [snd]; rewrite map_length, E; reflexivity.
  Qed.
  Lemma fclose_out p ts : length p = 1 -> ts <> [] -> forall g,
    exists t c, (fun fu => loop (cbody p) fu (fenc g ts)) ⇓ Ok (inr (Got (fold_value h t), c)) /\ leveled 0 t = stk_lv ts.
  Proof.
    intros Ep; remember (length ts) as n eqn:En; revert ts En; induction n as [n IH] using lt_wf_ind; intros ts En Hd g; subst n.
    destruct ts as [|popped [|[v cs] rest]]; [congruence| |].
    - destruct (fclose1 g popped) as (g' & Ec); exists popped, g'; split; [|reflexivity].
      apply loop_done, conv_eq; intros fu; unfold uclose_body; rewrite (deeper_len _ _ 0 Ep); cbn [fenc snd map length Nat.leb bindR].
      fold (fenc g [popped]); rewrite Ec; reflexivity.
    - destruct (fclose g popped v cs rest) as (g' & Ec).
      destruct (IH (S (length rest)) ltac:(cbn; lia) (TNode v (cs ++ [popped]) :: rest) eq_refl ltac:(discriminate) g') as (t & c & Hl & Es).
      exists t, c; split; [|rewrite stk_close; exact Es].
      eapply loop_step; [|exact Hl]; apply conv_eq; intros fu; unfold uclose_body; rewrite (deeper_len _ _ 0 Ep).
      unfold fenc at 1; cbn [snd map length Nat.leb bindR]; rewrite Ec; reflexivity.
  Qed.
  Lemma fdrain_out ts : ts <> [] -> forall g,
    exists t c, (fun fu => loop dbody fu (fenc g ts)) ⇓ Ok (Some (Got (fold_value h t)), c) /\ leveled 0 t = stk_lv ts.
  Proof.
    remember (length ts) as n eqn:En; revert ts En; induction n as [n IH] using lt_wf_ind; intros ts En Hd g; subst n.
    destruct ts as [|popped [|[v cs] rest]]; [congruence| |].
    - destruct (fclose1 g popped) as (g' & Ec); exists popped, g'; split; [|reflexivity].
      apply loop_done, conv_eq; intros fu; unfold udrain_body; rewrite Ec; reflexivity.
    - destruct (fclose g popped v cs rest) as (g' & Ec).
      destruct (IH (S (length rest)) ltac:(cbn; lia) (TNode v (cs ++ [popped]) :: rest) eq_refl ltac:(discriminate) g') as (t & c & Hl & Es).
      exists t, c; split; [|rewrite stk_close; exact Es].
      eapply loop_step; [|exact Hl]; apply conv_eq; intros fu; unfold udrain_body; rewrite Ec; reflexivity.
  Qed.

  Definition fold_fits (o : result O) (g : result (list (A * pos Nd))) : Prop :=
    exists t, o = outcome_map (fold_value h) t /\ made_of t g.

  Lemma ucfold_yield (P : pipe (result A)) (L : list (result A * pos Nd)) g0 :
    (forall k, exists s', calls (p_next P) k (p_init P) ⇓ Ok (map (nth_error (map fst L)) (seq 0 k), s') /\
      (forall i a x, k = S i -> nth_error L i = Some (Got a, x) -> pok_root (p_path P s') x)) ->
    exists outs, yields (ucfold_next P f) (uconsume_new P g0) outs /\ Forall2 fold_fits outs (handed [] L).
  Proof.
    intros HL.
    apply (uconsume_yields P (fun g : G => (g, [], [])) must dr (ucfold_close f)
      (fun st item _ => let '(g, values, folded) := st in Ok (g, item :: values, [] :: folded)) (fun st => fst (fst st)) L pok_root HL
      (fun st gr => exists g ts, st = fenc g ts /\ trep ts gr) fold_fits).
    - intros g; exists g, []; repeat split.
    - intros st gr p a x (g & ts & -> & E1 & E2) Hp Hc; pose proof (pok_root_depth _ _ Hp) as Ep.
      assert (Hc' : ts = [] \/ depth_each x <> 0).
      { destruct Hc as [->|Hc]; [left; destruct ts; [reflexivity|discriminate E2]|auto]. }
      destruct (fclose_down p _ ts Ep Hc' g) as (g1 & ts1 & Hl & Es & El).
      exists (fenc g1 ts1), (fenc g1 (TNode a [] :: ts1)); split; [exact Hl|split; [reflexivity|]].
      exists g1, (TNode a [] :: ts1); split; [reflexivity|].
      unfold trep; rewrite map_app; cbn [map]; unfold item_level at 2 4; cbn [fst snd]; rewrite settle_snoc, room_snoc, <- E2, <- E1.
      cbn [stk_lv leveled flat_map length]; rewrite Es, El; auto.
    - intros st gr p x (g & ts & -> & Hr) Hg Hp Hd; pose proof (pok_root_depth _ _ Hp) as Ep; rewrite Hd in Ep.
      destruct (fclose_out p ts Ep (trep_nonempty _ _ Hr Hg) g) as (t & c & Hl & Et).
      exists (fold_value h t), c; split; [exact Hl|]; exists (Got t); split; [reflexivity|]; cbn; rewrite Et; apply Hr.
    - intros st (g & ts & -> & _ & E); destruct ts; [|discriminate E]; exists g; apply loop_done, conv_eq; reflexivity.
    - intros st gr (g & ts & -> & Hr) Hg; destruct (fdrain_out ts (trep_nonempty _ _ Hr Hg) g) as (t & c & Hl & Et).
      exists (fold_value h t), c; split; [exact Hl|]; exists (Got t); split; [reflexivity|]; cbn; rewrite Et; apply Hr.
    - exists Unwound; split; [reflexivity|exact I].
  Qed.

  Lemma made_unique (o o' : result (tree A)) (g : result (list (A * pos Nd))) : made_of o g -> made_of o' g -> o = o'.
  Proof.
    destruct o as [t|], o' as [t'|], g as [g|]; cbn; try tauto; intros E E'; f_equal; eapply leveled_inj; rewrite E, E'; reflexivity.
  Qed.
  Lemma fold_fits_map outs outs' l : Forall2 made_of outs l -> Forall2 fold_fits outs' l -> outs' = map (outcome_map (fold_value h)) outs.
  Proof.
    intros H1; revert outs'; induction H1 as [|o g outs l Ho H1 IH]; intros outs' H2; inversion H2 as [|o' ? ? ? (t & -> & Ht) H2']; subst; [reflexivity|].
    cbn; f_equal; [f_equal; eapply made_unique; eassumption|apply IH; assumption].
  Qed.
End Folds.

Section BFolds.
  Context {A Nd G O : Type}.
  Variables (f : G -> option O * option O -> A -> G * option O) (h : option O * option O -> A -> O).
  Hypothesis Hf : forall g os v, snd (f g os v) = Some (h os v).
  Notation must := (fun (st : @bcfold_st A G O) path => deeper (length (snd st)) path).
  Notation cbody := (uclose_body must (ubcfold_close f)).
  Notation dr := (fun st : @bcfold_st A G O => match snd st with [] => Some (fst (fst st)) | _ => None end).
  Notation dbody := (udrain_body dr (ubcfold_close f)).

  Definition bvalue (t : btree A) : A := match t with BNode v _ _ => v end.
  Definition bkids (t : btree A) : option O * option O := match t with BNode _ l r => (option_map (bfold_value h) l, option_map (bfold_value h) r) end.
  Definition bfenc (g : G) (ts : list (tree (nat * A))) : @bcfold_st A G O :=
    (g, map (fun t => bvalue (sides t)) ts, map (fun t => (N.of_nat (slot_of t), bkids (sides t))) ts).

  Lemma bfold_eq t : bfold_value h t = h (bkids t) (bvalue t).
  Proof. destruct t; reflexivity. Qed.
  Lemma sides_value i v cs : bvalue (sides (TNode (i, v) cs)) = v.
  Proof. reflexivity. Qed.

  Lemma kids_add i v cs t : slot_of t <= 1 ->
    set_slot (N.of_nat (slot_of t)) (bkids (sides (TNode (i, v) cs))) (bfold_value h (sides t)) = Ok (bkids (sides (TNode (i, v) (cs ++ [t])))).
  Proof.
    intros Ht; cbn [sides bkids]; rewrite !fold_left_app; cbn [fold_left].
    destruct t as [[j w] ts]; cbn [slot_of] in *; destruct j as [|[|j]]; [reflexivity|reflexivity|lia].
  Qed.
  Lemma bfclose g popped v cs rest : sided (popped :: TNode v cs :: rest) ->
    (exists g', ubcfold_close f (bfenc g (popped :: TNode v cs :: rest)) = Ok (inl (bfenc g' (TNode v (cs ++ [popped]) :: rest)))) /\
    sided (TNode v (cs ++ [popped]) :: rest).
  Proof.
    intros Hs; unfold sided in *; cbn [removelast] in Hs; inversion Hs as [|? ? H1 H2]; subst; split.
    - destruct v as [i v]; unfold bfenc; cbn [map ubcfold_close].
      pose proof (Hf g (bkids (sides popped)) (bvalue (sides popped))) as E.
      destruct (f g (bkids (sides popped)) (bvalue (sides popped))) as [g' o]; cbn in E; subst o.
      exists g'; rewrite <- bfold_eq, kids_add by exact H1; cbn [bindR]; reflexivity.
    - destruct v as [i v]; cbn [removelast]; destruct rest; [constructor|]; inversion H2; subst; constructor; assumption.
  Qed.
  Lemma bfclose1 g t : exists g', ubcfold_close f (bfenc g [t]) = Ok (inr (Got (bfold_value h (sides t)), g')).
  Proof.
    unfold bfenc; cbn [map ubcfold_close].
    pose proof (Hf g (bkids (sides t)) (bvalue (sides t))) as E; destruct (f g (bkids (sides t)) (bvalue (sides t))) as [g' o]; cbn in E; subst o.
    exists g'; rewrite bfold_eq; reflexivity.
  Qed.

  Lemma bfclose_down p d ts : length p = S d -> ts = [] \/ d <> 0 -> sided ts -> forall g,
    exists g1 ts1, (fun fu => loop (cbody p) fu (bfenc g ts)) ⇓ Ok (inl (bfenc g1 ts1)) /\ stk_lv ts1 = stk_lv ts /\ length ts1 = Nat.min (length ts) d /\ sided ts1.
  Proof.
    intros Ep; remember (length ts) as n eqn:En; revert ts En; induction n as [n IH] using lt_wf_ind; intros ts En Hd Hs g; subst n.
    destruct (S d <=? length ts) eqn:E.
    - pose proof E as Eb; apply Nat.leb_le in E; destruct Hd as [->|Hd]; [cbn in E; lia|].
      destruct ts as [|popped [|[v cs] rest]]; cbn in E; try lia.
      destruct (bfclose g popped v cs rest Hs) as [(g' & Ec) Hs'].
      destruct (IH (S (length rest)) ltac:(cbn; lia) (TNode v (cs ++ [popped]) :: rest) eq_refl (or_intror Hd) Hs' g') as (g1 & ts1 & Hl & Es & El & Hs1).
      exists g1, ts1; split; [|split; [rewrite stk_close; exact Es|split; [cbn [length] in *; lia|exact Hs1]]].
      eapply loop_step; [|exact Hl]; apply conv_eq; intros fu; unfold uclose_body; rewrite (deeper_len _ _ _ Ep).
      unfold bfenc at 1; cbn [snd]; rewrite map_length, Eb; cbn [bindR]; rewrite Ec; reflexivity.
    - exists g, ts; split; [|split; [reflexivity|split; [apply Nat.leb_gt in E; lia|exact Hs]]].
      apply loop_done, conv_eq; intros fu; unfold uclose_body; rewrite (deeper_len _ _ _ Ep); unfold bfenc at 1; cbn [snd]; rewrite map_length, E; reflexivity.
  Qed.
  Lemma bfclose_out p ts : length p = 1 -> ts <> [] -> sided ts -> forall g,
    exists t c, (fun fu => loop (cbody p) fu (bfenc g ts)) ⇓ Ok (inr (Got (bfold_value h (sides t)), c)) /\ leveled 0 t = stk_lv ts.
  Proof.
    intros Ep; remember (length ts) as n eqn:En; revert ts En; induction n as [n IH] using lt_wf_ind; intros ts En Hd Hs g; subst n.
    destruct ts as [|popped [|[v cs] rest]]; [congruence| |].
    - destruct (bfclose1 g popped) as (g' & Ec); exists popped, g'; split; [|reflexivity].
      apply loop_done, conv_eq; intros fu; unfold uclose_body; rewrite (deeper_len _ _ 0 Ep).
      unfold bfenc at 1; cbn [snd map length Nat.leb bindR]; rewrite Ec; reflexivity.
    - destruct (bfclose g popped v cs rest Hs) as [(g' & Ec) Hs'].
      destruct (IH (S (length rest)) ltac:(cbn; lia) (TNode v (cs ++ [popped]) :: rest) eq_refl ltac:(discriminate) Hs' g') as (t & c & Hl & Es).
      exists t, c; split; [|rewrite stk_close; exact Es].
      eapply loop_step; [|exact Hl]; apply conv_eq; intros fu; unfold uclose_body; rewrite (deeper_len _ _ 0 Ep).
      unfold bfenc at 1; cbn [snd map length Nat.leb bindR]; rewrite Ec; reflexivity.
  Qed.
  Lemma bfdrain_out ts : ts <> [] -> sided ts -> forall g,
    exists t c, (fun fu => loop dbody fu (bfenc g ts)) ⇓ Ok (Some (Got (bfold_value h (sides t))), c) /\ leveled 0 t = stk_lv ts.
  Proof.
    remember (length ts) as n eqn:En; revert ts En; induction n as [n IH] using lt_wf_ind; intros ts En Hd Hs g; subst n.
    destruct ts as [|popped [|[v cs] rest]]; [congruence| |].
    - destruct (bfclose1 g popped) as (g' & Ec); exists popped, g'; split; [|reflexivity].
      apply loop_done, conv_eq; intros fu; unfold udrain_body; rewrite Ec; reflexivity.
    - destruct (bfclose g popped v cs rest Hs) as [(g' & Ec) Hs'].
      destruct (IH (S (length rest)) ltac:(cbn; lia) (TNode v (cs ++ [popped]) :: rest) eq_refl ltac:(discriminate) Hs' g') as (t & c & Hl & Es).
      exists t, c; split; [|rewrite stk_close; exact Es].
      eapply loop_step; [|exact Hl]; apply conv_eq; intros fu; unfold udrain_body; rewrite Ec; reflexivity.
  Qed.

  Definition bfold_fits (o : result O) (g : result (list (A * pos Nd))) : Prop :=
    exists t, o = outcome_map (bfold_value h) t /\ bmade_of t g.

  Lemma ubcfold_yield (P : pipe (result A)) (L : list (result A * pos Nd)) g0 :
    (forall k, exists s', calls (p_next P) k (p_init P) ⇓ Ok (map (nth_error (map fst L)) (seq 0 k), s') /\
      (forall i a x, k = S i -> nth_error L i = Some (Got a, x) -> pok_side (p_path P s') x)) ->
    exists outs, yields (ubcfold_next P f) (uconsume_new P g0) outs /\ Forall2 bfold_fits outs (handed [] L).
  Proof.
    intros HL.
    apply (uconsume_yields P (fun g : G => (g, [], [])) must dr (ubcfold_close f)
      (fun st item path => let '(g, values, folded) := st in
         slot <- last_seg path ;; Ok (g, item :: values, (slot, (None, None)) :: folded)) (fun st => fst (fst st)) L pok_side HL
      (fun st gr => exists g ts, st = bfenc g ts /\ sided ts /\ stk_lv ts = settle 0 (map item_side gr) /\ length ts = room_after 0 (map item_side gr)) bfold_fits).
    - intros g; exists g, []; repeat split; constructor.
    - intros bst gr p a x (g & st & -> & Hs & E1 & E2) Hp Hc; pose proof (pok_side_depth _ _ Hp) as Ep.
      assert (Hc' : st = [] \/ depth_each x <> 0).
      { destruct Hc as [->|Hc]; [left; destruct st; [reflexivity|discriminate E2]|auto]. }
      destruct (bfclose_down p _ st Ep Hc' Hs g) as (g1 & st1 & Hl & Es & El & Hs1).
      exists (bfenc g1 st1), (bfenc g1 (TNode (last (pos_path x) 0, a) [] :: st1)); split; [exact Hl|split].
      + unfold bfenc at 1; rewrite (pok_side_last _ _ Hp); reflexivity.
      + exists g1; eexists; split; [reflexivity|split].
        * unfold sided; cbn [removelast]; destruct st1 as [|y st1]; [constructor|]; constructor; [|exact Hs1].
          cbn; apply Hp; destruct Hc' as [->|Hc']; [discriminate El|exact Hc'].
        * rewrite map_app; cbn [map]; unfold item_side at 2 4; cbn [fst snd]; rewrite settle_snoc, room_snoc, <- E2, <- E1.
          cbn [stk_lv leveled flat_map length]; rewrite Es, El; auto.
    - intros bst gr p x (g & st & -> & Hs & E1 & E2) Hg Hp Hd; pose proof (pok_side_depth _ _ Hp) as Ep; rewrite Hd in Ep.
      assert (Hst : st <> []) by (intros ->; symmetry in E2; cbn in E2; apply room_nil, map_eq_nil in E2; congruence).
      destruct (bfclose_out p st Ep Hst Hs g) as (t & c & Hl & Et).
      exists (bfold_value h (sides t)), c; split; [exact Hl|]; exists (Got (sides t)); split; [reflexivity|]; exists t; split; [reflexivity|rewrite Et; exact E1].
    - intros bst (g & st & -> & _ & _ & E); destruct st; [|discriminate E]; exists g; apply loop_done, conv_eq; reflexivity.
    - intros bst gr (g & st & -> & Hs & E1 & E2) Hg.
      assert (Hst : st <> []) by (intros ->; symmetry in E2; cbn in E2; apply room_nil, map_eq_nil in E2; congruence).
      destruct (bfdrain_out st Hst Hs g) as (t & c & Hl & Et).
      exists (bfold_value h (sides t)), c; split; [exact Hl|]; exists (Got (sides t)); split; [reflexivity|]; exists t; split; [reflexivity|rewrite Et; exact E1].
    - exists Unwound; split; [reflexivity|exact I].
  Qed.

  Lemma bmade_unique (o o' : result (btree A)) (g : result (list (A * pos Nd))) : bmade_of o g -> bmade_of o' g -> o = o'.
  Proof.
    destruct o as [t|], o' as [t'|], g as [g|]; cbn; try tauto; intros (u & -> & E) (u' & -> & E'); do 2 f_equal; eapply leveled_inj; rewrite E, E'; reflexivity.
  Qed.
  Lemma bfold_fits_map outs outs' l : Forall2 bmade_of outs l -> Forall2 bfold_fits outs' l -> outs' = map (outcome_map (bfold_value h)) outs.
  Proof.
    intros H1; revert outs'; induction H1 as [|o g outs l Ho H1 IH]; intros outs' H2; inversion H2 as [|o' ? ? ? (t & -> & Ht) H2']; subst; [reflexivity|].
    cbn; f_equal; [f_equal; eapply bmade_unique; eassumption|apply IH; assumption].
  Qed.
End BFolds.
