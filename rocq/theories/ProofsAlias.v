(** Calls of an iterator never multiply the references it was given. *)
From Verif Require Import Prelim PrelimFacts Spec ModelNode ModelBfs ModelPre ModelPost ModelIn ModelLeaves ModelColl SpecAlias ModelAlias.

(** ** Weights: how often one cell occurs *)
Notation cnt x l := (count_occ Nat.eq_dec l x).

Section Sum.
  Context {A : Type} (w : A -> nat).
  Definition wsum (l : list A) : nat := list_sum (map w l).
  Lemma wsum_nil : wsum [] = 0. Proof. reflexivity. Qed.
  Lemma wsum_cons a l : wsum (a :: l) = w a + wsum l. Proof. reflexivity. Qed.
  Lemma wsum_app a b : wsum (a ++ b) = wsum a + wsum b.
  Proof. unfold wsum; rewrite map_app, list_sum_app; reflexivity. Qed.
  Lemma wsum_rev a : wsum (rev a) = wsum a.
  Proof. induction a as [|x a IH]; [reflexivity|]; cbn [rev]; rewrite wsum_app, IH, !wsum_cons, wsum_nil; lia. Qed.
  Lemma wsum_tl l : wsum (tl l) <= wsum l.
  Proof. destruct l; [reflexivity|]; rewrite wsum_cons; cbn [tl]; lia. Qed.
  Lemma wsum_hd_tl l : match hd_error l with Some a => w a | None => 0 end + wsum (tl l) = wsum l.
  Proof. destruct l; reflexivity. Qed.
End Sum.

Lemma cnt_app x a b : cnt x (a ++ b) = cnt x a + cnt x b.
Proof. apply count_occ_app. Qed.
Lemma cnt_flat {A} (f : A -> list nat) x l : cnt x (flat_map f l) = wsum (fun a => cnt x (f a)) l.
Proof. induction l as [|a l IH]; [reflexivity|]; cbn [flat_map]; rewrite cnt_app, IH, wsum_cons; reflexivity. Qed.

Lemma loop_le {St R} (W : St -> nat) (WR : R -> nat) (body : nat -> St -> Res (St + R)) :
  (forall f s s', body f s = Ok (inl s') -> W s' <= W s) -> (forall f s r, body f s = Ok (inr r) -> WR r <= W s) ->
  forall f s r, loop body f s = Ok r -> WR r <= W s.
Proof.
  intros Hl Hr f; induction f as [|f IH]; intros s r E; [discriminate|]; cbn [loop] in E.
  destruct (body f s) as [[s'|r']| | |] eqn:Eb; try discriminate.
  - specialize (IH _ _ E); specialize (Hl _ _ _ Eb); lia.
  - injection E as <-; exact (Hr _ _ _ Eb).
Qed.

(** ** From weights to exclusiveness *)
Section Exclusive.
  Context {St O : Type}.
  Variable next : nat -> St -> Res (O * St).
  Variable handed : O -> list nat.
  Variable shown : St -> list nat.
  Variable written : St -> St -> Prop.
  Variable tot : nat -> St -> nat.
  (** Calls never increase the weight; the current item is part of it; writes change only the current item. *)
  Definition conserves : Prop :=
    (forall x f s o s', next f s = Ok (o, s') -> cnt x (handed o) + tot x s' <= tot x s) /\
    (forall x s, cnt x (shown s) <= tot x s) /\
    (forall x s s', written s s' -> tot x s' + cnt x (shown s) = tot x s + cnt x (shown s')).
  Hypothesis HC : conserves.

  Lemma conserves_reached s0 h0 : (forall x, tot x s0 + cnt x h0 <= 1) ->
    forall s h, reached next handed shown written s0 h0 s h -> forall x, tot x s + cnt x h <= 1.
  Proof.
    destruct HC as (Hnext & Hshown & Hwritten); intros H0 s h Hr x.
    induction Hr as [|f s h o s' Hr IH E|s h s' h' Hr IH Hw Hin]; [apply H0| |].
    - specialize (Hnext x _ _ _ _ E); rewrite cnt_app; lia.
    - specialize (Hin x); rewrite !cnt_app in Hin; destruct Hw as [Hw| ->]; [specialize (Hwritten x _ _ Hw)|]; specialize (Hshown x s); lia.
  Qed.
  Lemma conserves_exclusive s0 h0 : (forall x, tot x s0 + cnt x h0 <= 1) -> exclusive next handed shown written s0 h0.
  Proof.
    intros H0 s h Hr; apply (NoDup_count_occ Nat.eq_dec); intros x; pose proof (conserves_reached _ _ H0 _ _ Hr x).
    destruct HC as (_ & Hshown & _); specialize (Hshown x s); rewrite cnt_app; lia.
  Qed.
End Exclusive.

(** ** Weights of iterator states, for one cell *)
Section Weights.
  Context {Nd V : Type}.
  Variable wn : Nd -> nat.
  Variable wv : V -> nat.
  Definition wo (o : option Nd) : nat := match o with Some n => wn n | None => 0 end.
  Definition wov (o : option V) : nat := match o with Some n => wv n | None => 0 end.
  Definition wvs := wsum wv.

  Ltac go := repeat (rewrite ?wsum_nil, ?wsum_cons, ?wsum_app in * ).
  Ltac inv E := injection E; clear E; intros; subst.

  (** *** Plain iterators, iterators with ancestors, and leaves, n-ary interface *)
  Section Nary.
    Variable gvc : Nd -> V * list Nd.
    Hypothesis Hgvc : forall n, wv (fst (gvc n)) + wsum wn (snd (gvc n)) <= wn n.
    Notation ws := (wsum (wsum wn)).

    Lemma gvc_le n v c : gvc n = (v, c) -> wv v + wsum wn c <= wn n.
    Proof. intros E; specialize (Hgvc n); rewrite E in Hgvc; exact Hgvc. Qed.
    Ltac take n := let E := fresh "Eg" in let v := fresh "v" in let c := fresh "c" in
      destruct (gvc n) as [v c] eqn:E; apply gvc_le in E.

    Definition w_bfs (s : bfs_iter Nd) := wo (bfs_root s) + ws (bfs_queue s).
    Lemma bfs_le f s o s' : bfs_next gvc f s = Ok (o, s') -> wov o + w_bfs s' <= w_bfs s.
    Proof.
      unfold bfs_next, w_bfs; destruct s as [[r|] q]; cbn [bfs_root bfs_queue wo].
      - take r; intros E; inv E; cbn [bfs_root bfs_queue wo wov]; go; lia.
      - intros E; refine (loop_le ws (fun r => wov (fst r) + (wo (bfs_root (snd r)) + ws (bfs_queue (snd r)))) _ _ _ _ _ _ E).
        + intros ? [|[|n l] q'] s2 E2; cbn in E2; try discriminate; [inv E2; go; lia|]; take n; discriminate.
        + intros ? [|[|n l] q'] r E2; cbn [bfs_next_body] in E2; try discriminate; [inv E2; cbn; lia|].
          take n; inv E2; cbn [fst snd bfs_root bfs_queue wo wov]; cbn [app]; go; lia.
    Qed.

    Definition w_pre (s : pre_iter Nd) := wo (pre_root s) + ws (pre_stack s).
    Lemma pre_le f s o s' : pre_next gvc f s = Ok (o, s') -> wov o + w_pre s' <= w_pre s.
    Proof.
      unfold pre_next, w_pre; destruct s as [[r|] q]; cbn [pre_root pre_stack wo].
      - take r; intros E; inv E; cbn [pre_root pre_stack wo wov]; go; lia.
      - destruct (loop pre_next_body f q) as [[o1 st]| | |] eqn:El; cbn [bindR]; try discriminate.
        assert (H : wo o1 + ws st <= ws q).
        { refine (loop_le ws (fun r => wo (fst r) + ws (snd r)) _ _ _ _ _ _ El).
          + intros ? [|[|n l] q'] s2 E2; cbn in E2; try discriminate; inv E2; go; lia.
          + intros ? [|[|n l] q'] r E2; cbn in E2; try discriminate; inv E2; cbn [fst snd wo]; go; lia. }
        destruct o1 as [n|]; [take n|]; intros E; inv E; cbn [pre_root pre_stack wo wov] in *; go; lia.
    Qed.

    Definition w_prea (s : prea Nd V) := wo (pa_root s) + ws (pa_stack s) + wvs (pa_items s).
    Lemma prea_le f s s' : prea_advance gvc f s = Ok s' -> w_prea s' <= w_prea s.
    Proof.
      unfold prea_advance, w_prea, wvs; destruct s as [[r|] q it]; cbn [pa_root pa_stack pa_items wo].
      - take r; intros E; inv E; cbn [pa_root pa_stack pa_items wo]; go; lia.
      - destruct (loop prea_body f (q, it)) as [[[o1 st] it1]| | |] eqn:El; cbn [bindR]; try discriminate.
        assert (H : wo o1 + ws st + wsum wv it1 <= ws q + wsum wv it).
        { refine (loop_le (fun s => ws (fst s) + wsum wv (snd s)) (fun r => wo (fst (fst r)) + ws (snd (fst r)) + wsum wv (snd r)) _ _ _ _ _ _ El).
          + intros ? [[|[|n l] q'] i] s2 E2; cbn in E2; try discriminate; inv E2; cbn [fst snd]; go; pose proof (wsum_tl wv i); lia.
          + intros ? [[|[|n l] q'] i] r E2; cbn in E2; try discriminate; inv E2; cbn [fst snd wo]; go; lia. }
        destruct o1 as [n|]; [take n|]; intros E; inv E; cbn [pa_root pa_stack pa_items wo] in *; go; lia.
    Qed.

    Definition w_post (s : post_iter Nd V) := wo (po_root s) + ws (po_stack s) + wvs (po_items s).
    Lemma post_le f s o s' : post_next gvc f s = Ok (o, s') -> wov o + w_post s' <= w_post s.
    Proof.
      intros E; refine (loop_le w_post (fun r => wov (fst r) + w_post (snd r)) _ _ _ _ _ _ E);
        unfold post_next_body, w_post, wvs.
      - intros ? [[r|] it [|[|n l] q]] s2; cbn [po_root po_stack po_items wo]; try discriminate; (take r || take n); intros E2; inv E2;
          cbn [po_root po_stack po_items wo]; go; lia.
      - intros ? [[r|] it [|[|n l] q]] r2; cbn [po_root po_stack po_items wo]; try (take r; discriminate); try (take n; discriminate);
          intros E2; inv E2; cbn [fst snd po_root po_stack po_items wo]; pose proof (wsum_hd_tl wv it); unfold wov; go; lia.
    Qed.
    Lemma posta_le f s s' : posta_advance gvc f s = Ok s' -> w_post s' <= w_post s.
    Proof.
      unfold posta_advance; destruct s as [r it q]; cbn [po_root po_stack po_items].
      destruct (match r with Some root => _ | None => _ end) as [it1 q1] eqn:E1.
      assert (H1 : wvs it1 + ws q1 <= w_post (mkPost r it q)).
      { unfold w_post, wvs; cbn [po_root po_stack po_items]; destruct r as [r|]; [take r|]; inv E1; cbn [wo]; go; [lia|].
        pose proof (wsum_tl wv it); lia. }
      destruct (loop (posta_body gvc) f (it1, q1)) as [[it2 q2]| | |] eqn:El; cbn [bindR]; try discriminate.
      intros E; inv E; unfold w_post in *; cbn [po_root po_stack po_items wo] in *.
      assert (H2 : wvs it2 + ws q2 <= wvs it1 + ws q1); [|lia].
      refine (loop_le (fun s => wvs (fst s) + ws (snd s)) (fun s => wvs (fst s) + ws (snd s)) _ _ _ _ _ _ El); unfold posta_body, wvs.
      - intros ? [i [|[|n l] q']] s2; try discriminate; take n; intros E2; inv E2; cbn [fst snd]; go; lia.
      - intros ? [i [|[|n l] q']] s2; try (take n; discriminate); intros E2; inv E2; cbn [fst snd]; go; lia.
    Qed.

    Definition w_dl (s : dleaves Nd V) := wo (dl_root s) + ws (dl_bottom s) + ws (dl_top s) + wvs (dl_items s).
    Lemma dleaves_le f s o s' : dleaves_next gvc f s = Ok (o, s') -> wov o + w_dl s' <= w_dl s.
    Proof.
      assert (HL : forall b s, loop (dleaves_body gvc) f (b, s) = Ok (o, s') -> wov o + w_dl s' <= w_dl s).
      { intros b s1 E; refine (loop_le (fun p => w_dl (snd p)) (fun r => wov (fst r) + w_dl (snd r)) _ _ _ _ _ _ E);
          unfold dleaves_body, w_dl, wvs; intros ? [j [rt bo to it]] s2; cbn [dl_root dl_bottom dl_top dl_items].
        - destruct to as [|[|n l] to]; [destruct bo as [|[|n l] bo]| |]; try (take n); try destruct j; try discriminate; intros E2; inv E2;
            cbn [fst snd dl_root dl_bottom dl_top dl_items]; pose proof (wsum_tl wv it); go; lia.
        - destruct to as [|[|n l] to]; [destruct bo as [|[|n l] bo]| |]; try (take n); try destruct j; try discriminate; intros E2; inv E2;
            cbn [fst snd dl_root dl_bottom dl_top dl_items wov]; pose proof (wsum_hd_tl wv it); unfold wov; go; lia. }
      unfold dleaves_next; destruct (dl_root s) as [r|] eqn:Er; [take r|]; intros E; apply HL in E; [|exact E].
      unfold w_dl, wvs in *; rewrite Er; cbn [dl_root dl_bottom dl_top dl_items wo] in E |- *; go; lia.
    Qed.

    Definition w_da (s : daleaves Nd V) := wo (da_root s) + ws (da_old s) + ws (da_new s) + wvs (da_items s).
    Lemma daleaves_le f s s' : daleaves_advance gvc f s = Ok s' -> w_da s' <= w_da s.
    Proof.
      assert (HL : forall b s, loop (daleaves_body gvc) f (b, s) = Ok s' -> w_da s' <= w_da s).
      { intros b s1 E; refine (loop_le (fun p => w_da (snd p)) w_da _ _ _ _ _ _ E);
          unfold daleaves_body, w_da, wvs; intros ? [j [rt it ol nw]] s2; cbn [da_root da_items da_old da_new].
        - destruct nw as [|[|n l] nw]; [| |take n; intros E2; inv E2; cbn [fst snd da_root da_items da_old da_new]; go; lia];
            cbn [tl]; (destruct j; [discriminate|]); (destruct ol as [|[|n l] ol]; [| |take n]); cbn [tl]; try (destruct (tl it) as [|v1 it1] eqn:Et; [discriminate|]); intros E2; inv E2; cbn [fst snd da_root da_items da_old da_new]; pose proof (wsum_tl wv it);
            try rewrite Et in *; go; lia.
        - destruct nw as [|[|n l] nw]; [| |take n; discriminate];
            cbn [tl]; (destruct j; [intros E2; inv E2; cbn [fst snd da_root da_items da_old da_new]; go; lia|]);
            (destruct ol as [|[|n l] ol]; [| |take n; discriminate]); cbn [tl]; (destruct (tl it) as [|v1 it1] eqn:Et; [|discriminate]); intros E2; inv E2; cbn [fst snd da_root da_items da_old da_new]; go; lia. }
      unfold daleaves_advance; destruct (da_root s) as [r|] eqn:Er; [take r|]; intros E; apply HL in E;
        unfold w_da, wvs in *; rewrite Er; cbn [da_root da_items da_old da_new wo] in E |- *; go; pose proof (wsum_tl wv (da_items s)); lia.
    Qed.

    Definition w_bl (s : bleaves Nd) := wo (bl_root s) + ws (bl_old s) + ws (bl_new s).
    Lemma bleaves_le f s o s' : bleaves_next gvc f s = Ok (o, s') -> wov o + w_bl s' <= w_bl s.
    Proof.
      assert (H1 : forall f s o s', bleaves_bfs_next gvc f s = Ok (o, s') -> wov (option_map snd o) + w_bl s' <= w_bl s).
      { clear f s o s'; intros f s o s'; unfold bleaves_bfs_next; destruct (bl_root s) as [r|] eqn:Er.
        - take r; intros E; inv E; unfold w_bl; rewrite Er; cbn [bl_root bl_old bl_new wo option_map snd wov]; go; lia.
        - intros E; refine (loop_le w_bl (fun r => wov (option_map snd (fst r)) + w_bl (snd r)) _ _ _ _ _ _ E);
            unfold bleaves_bfs_body, w_bl; intros ? [rt ol nw] s2; cbn [bl_root bl_old bl_new];
            (destruct ol as [|[|n l] ol]; [destruct nw as [|[|n l] nw]| |]); try (take n); try discriminate; intros E2; inv E2;
            cbn [fst snd bl_root bl_old bl_new option_map wov app]; go; lia. }
      intros E; refine (loop_le w_bl (fun r => wov (fst r) + w_bl (snd r)) _ _ _ _ _ _ E); unfold bleaves_body;
        intros f1 s1 r1; destruct (bleaves_bfs_next gvc f1 s1) as [[o1 s2]| | |] eqn:E1; cbn [bindR]; try discriminate; apply H1 in E1;
        destruct o1 as [[[|] v]|]; try discriminate; intros E2; inv E2; cbn [fst snd option_map wov] in *; lia.
    Qed.
  End Nary.
End Weights.
