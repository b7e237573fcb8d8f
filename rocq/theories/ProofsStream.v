(** * Collections of trees that come from any iterator. *)
From Verif Require Import Prelim PrelimFacts Spec SpecFacts SpecObs SpecStream ModelNode NodeFacts ModelColl ModelStream Slots ProofsPlain.

Section Gives.
  Context {S A : Type} (next : nat -> S -> Res (option A * S)).
  (** The first [n] calls give the items of [l]. *)
  Definition gives (n : nat) (s : S) (l : list A) : Prop := forall k, k <= n -> exists s', calls next k s ⇓ Ok (map (nth_error l) (seq 0 k), s').
  Lemma gives_S n s l : gives (Datatypes.S n) s l -> exists s', (fun f => next f s) ⇓ Ok (hd_error l, s') /\ gives n s' (tl l).
  Proof.
    intros H.
    destruct (H 1 ltac:(lia)) as [s' [F HF]].
    assert (Hn : (fun f => next f s) ⇓ Ok (hd_error l, s')).
    { exists F; intros f Hf; specialize (HF f Hf); cbn in HF.
      destruct (next f s) as [[o s1]| | |]; cbn in HF; try discriminate.
      injection HF as -> ->; destruct l; reflexivity. }
    exists s'; split; [exact Hn|].
    intros k Hk.
    destruct (H (Datatypes.S k) ltac:(lia)) as [s2 H2].
    destruct (calls_S_inv _ _ _ _ _ H2) as (o & s1 & os' & Hn' & Hc & E); [eauto|].
    pose proof (conv_fun _ _ _ Hn Hn') as E'; injection E' as <- <-.
    exists s2.
    cbn [seq map] in E.
    replace (map (nth_error (tl l)) (seq 0 k)) with os'; [exact Hc|].
    apply (f_equal (@tl _)) in E; cbn in E; subst os'.
    rewrite <- seq_shift, map_map; apply map_ext; intros i; symmetry; apply nth_error_tl.
  Qed.
  Lemma gives_le m n s l : m <= n -> gives n s l -> gives m s l.
  Proof. intros Hm H k Hk; apply H; lia. Qed.
  Lemma gives_yields s l n : yields next s l -> gives n s l.
  Proof. intros H k _; exact (H k). Qed.
End Gives.

Section Streams.
  Context {Src T A : Type}.
  Variable poll : Src -> option T * Src.
  Variable L : nat -> T -> list A.

  Definition part (i : nat) (o : option T) : list (option A) := match o with Some t => map Some (L i t) | None => [None] end.
  (** What comes of the answers from number [i] on. *)
  Definition from (i : nat) (os : list (option T)) : list (option A) := concat (mapi part i os).

  (** Enough for [n] more answers, when [l0] are left of the current tree. *)
  Definition enough (n i : nat) (l0 : list (option A)) (c : Src) (j : nat) : Prop :=
    n <= length (l0 ++ from i (polls poll j c)) /\ forall x, x < j -> length (l0 ++ from i (polls poll x c)) < n.

  Lemma enough_item n i a l0 c j : enough n i l0 c j -> enough (S n) i (a :: l0) c j.
  Proof. intros [H1 H2]; split; [cbn; lia|]; intros x Hx; specialize (H2 x Hx); cbn; lia. Qed.
  Lemma enough_poll n i c o c' j : poll c = (o, c') -> enough n (S i) (part i o) c' j -> 0 < n -> enough n i [] c (S j).
  Proof.
    intros E [H1 H2] Hn; split; cbn [app polls]; rewrite ?E.
    - unfold from; cbn [mapi concat]; exact H1.
    - intros [|x] Hx; [exact Hn|]; cbn [polls]; rewrite E; unfold from; cbn [mapi concat]; apply H2; lia.
  Qed.
  Lemma enough_0 i l0 c : enough 0 i l0 c 0.
  Proof. split; [lia|]; lia. Qed.

  Lemma polls_app j c : exists c', forall x, polls poll (j + x) c = polls poll j c ++ polls poll x c'.
  Proof.
    revert c; induction j as [|j IH]; intros c; [exists c; reflexivity|]; cbn [plus polls]; destruct (poll c) as [o c1].
    destruct (IH c1) as [c' H]; exists c'; intros x; rewrite H; reflexivity.
  Qed.
End Streams.

Section Plain.
  Context {Src T S A : Type}.
  Variable poll : Src -> option T * Src.
  Variable new : T -> S.
  Variable next : nat -> S -> Res (option A * S).
  Variable L : T -> list A.
  Local Notation L' := (fun _ : nat => L).
  (** What [n] calls need to know of the first [m] answers to come. *)
  Definition good (n m : nat) (c : Src) : Prop := Forall (fun o => match o with Some t => L t <> [] /\ gives next n (new t) (L t) | None => True end) (polls poll m c).

  Lemma good_le n' n m c : n' <= n -> good n m c -> good n' m c.
  Proof. intros Hn; apply Forall_impl; intros [t|] Ht; [|exact I]; destruct Ht as [Ht Hg]; split; [exact Ht|eapply gives_le; eassumption]. Qed.
  Lemma good_S n m c o c' : poll c = (o, c') -> good n (Datatypes.S m) c ->
    match o with Some t => L t <> [] /\ gives next n (new t) (L t) | None => True end /\ good n m c'.
  Proof. unfold good; cbn [polls]; intros -> H; inversion H; subst; auto. Qed.

  Lemma take_tree n m c asked : good (Datatypes.S n) (Datatypes.S m) c -> exists o c' s', poll c = (o, c') /\
    (fun F => scoll_next poll new next F (mkSc c None asked)) ⇓ Ok (hd None (part L' 0 o), s') /\
    sc_source s' = c' /\ sc_asked s' = o :: asked /\ good n m c' /\
    (match sc_cur s' with Some it => exists l, tl (part L' 0 o) = map Some l /\ gives next n it l | None => tl (part L' 0 o) = [] end) /\ part L' 0 o <> [].
  Proof.
    intros Hg; destruct (poll c) as [o c'] eqn:E; destruct (good_S _ m c o c' E Hg) as [Ho Hg']; exists o, c'; apply (good_le n) in Hg'; [|lia].
    destruct o as [t|].
    - destruct Ho as [Hne Hn]; destruct (gives_S next n (new t) (L t) Hn) as (it' & Hc & Hg2).
      cbn [part]; destruct (L t) as [|x l]; [congruence|]; cbn [hd_error tl map hd] in *.
      exists (mkSc c' (Some it') (Some t :: asked)); split; [reflexivity|]; split; [|cbn; repeat split; try assumption; try discriminate; exists l; split; [reflexivity|exact Hg2]].
      eapply loop_step; [apply conv_eq; intros f; unfold scoll_body, scoll_next_tree; cbn [sc_cur sc_source sc_asked]; rewrite E; reflexivity|].
      apply loop_done; unfold scoll_body; cbn [sc_cur sc_source sc_asked]; eapply conv_bind; [exact Hc|now_conv].
    - exists (mkSc c' None (None :: asked)); split; [reflexivity|]; split; [|cbn; repeat split; try assumption; discriminate].
      apply loop_done; apply conv_eq; intros f; unfold scoll_body, scoll_next_tree; cbn [sc_cur sc_source sc_asked]; rewrite E; reflexivity.
  Qed.

  Lemma scoll_run : forall n m i c cur asked l0, n <= m -> good n m c ->
    match cur with Some it => exists l, l0 = map Some l /\ gives next n it l | None => l0 = [] end ->
    exists s j, calls (scoll_next poll new next) n (mkSc c cur asked) ⇓ Ok (firstn n (l0 ++ from L' i (polls poll m c)), s) /\
      sc_asked s = rev (polls poll j c) ++ asked /\ enough poll L' n i l0 c j.
  Proof.
    induction n as [|n IH]; intros m i c cur asked l0 Hm Hg Hcur.
    { eexists _, 0; split; [apply calls_0|]; split; [reflexivity|apply enough_0]. }
    destruct m as [|m]; [lia|].
    assert (Hnew : forall s1 o c', (fun F => scoll_next poll new next F (mkSc c cur asked)) ⇓ Ok (hd None (part L' 0 o), s1) -> poll c = (o, c') -> l0 = [] ->
      sc_source s1 = c' -> sc_asked s1 = o :: asked -> good n m c' ->
      (match sc_cur s1 with Some it => exists l, tl (part L' 0 o) = map Some l /\ gives next n it l | None => tl (part L' 0 o) = [] end) -> part L' 0 o <> [] ->
      exists s j, calls (scoll_next poll new next) (Datatypes.S n) (mkSc c cur asked) ⇓ Ok (firstn (Datatypes.S n) (l0 ++ from L' i (polls poll (Datatypes.S m) c)), s) /\
        sc_asked s = rev (polls poll j c) ++ asked /\ enough poll L' (Datatypes.S n) i l0 c j).
    { intros s1 o c' Hs E -> E1 E2 Hg' Hc1 Hne; destruct s1 as [c1 cur1 asked1]; cbn [sc_source sc_asked sc_cur] in *; subst c1 asked1.
      destruct (IH m (Datatypes.S i) c' cur1 (o :: asked) _ ltac:(lia) Hg' Hc1) as (s & j & Hc & Ha & He).
      exists s, (Datatypes.S j).
      assert (Ep : part L' i o = hd None (part L' 0 o) :: tl (part L' 0 o)) by (change (part L' i o) with (part L' 0 o); destruct (part L' 0 o); [congruence|reflexivity]).
      split; [|split].
      - cbn [app polls]; rewrite E; unfold from; cbn [mapi concat]; fold (from L' (Datatypes.S i) (polls poll m c')).
        rewrite Ep; cbn [app firstn]; exact (calls_S _ _ _ _ _ _ _ Hs Hc).
      - cbn [polls]; rewrite E, Ha; cbn [rev]; rewrite <- app_assoc; reflexivity.
      - eapply enough_poll; [exact E| |lia]; rewrite Ep; apply enough_item; exact He. }
    destruct cur as [it|].
    - destruct Hcur as (l & -> & Hit); destruct (gives_S next n it l Hit) as (it' & Hn & Hg2).
      destruct l as [|x l]; cbn [hd_error tl map] in *.
      + destruct (take_tree n m c asked Hg) as (o & c' & s1 & E & Hs & H1 & H2 & H3 & H4 & H5).
        apply (Hnew s1 o c'); auto.
        destruct Hs as [[|F] HF]; [specialize (HF 0 (le_n _)); discriminate|]; destruct Hn as [G HG]; exists (Datatypes.S (F + G)); intros f Hf.
        destruct f as [|f]; [lia|]; unfold scoll_next; cbn [loop]; unfold scoll_body at 1; cbn [sc_cur sc_source sc_asked]; rewrite HG by lia; cbn [bindR].
        specialize (HF (Datatypes.S f) ltac:(lia)); unfold scoll_next in HF; cbn [loop] in HF; unfold scoll_body at 1 in HF; cbn [sc_cur sc_source sc_asked bindR] in HF; exact HF.
      + destruct (IH (Datatypes.S m) i c (Some it') asked (map Some l)) as (s & j & Hc & Ha & He); [lia|eapply good_le; [|exact Hg]; lia|exists l; split; [reflexivity|exact Hg2]|].
        exists s, j; split; [|split; [exact Ha|apply enough_item; exact He]].
        cbn [app firstn map]; eapply calls_S; [|exact Hc].
        apply loop_done; unfold scoll_body; cbn [sc_cur sc_source sc_asked]; eapply conv_bind; [exact Hn|now_conv].
    - subst l0; destruct (take_tree n m c asked Hg) as (o & c' & s1 & E & Hs & H1 & H2 & H3 & H4 & H5).
      exact (Hnew s1 o c' Hs E eq_refl H1 H2 H3 H4 H5).
  Qed.

  (** From the start. *)
  Lemma scoll_all k c : good k k c -> goes_over poll L' (scoll_next poll new next) sc_asked c (scoll_new c) k.
  Proof.
    intros Hg; destruct (scoll_run k k 0 c None [] [] (le_n _) Hg eq_refl) as (s & j & Hc & Ha & He).
    exists s, j; split; [exact Hc|]; split; [rewrite Ha, app_nil_r, rev_involutive; reflexivity|exact He].
  Qed.

  Lemma scoll_all_yields k c : (forall t, In (Some t) (polls poll k c) -> L t <> [] /\ yields next (new t) (L t)) ->
    goes_over poll L' (scoll_next poll new next) sc_asked c (scoll_new c) k.
  Proof.
    intros H; apply scoll_all, Forall_forall; intros [t|] Ht; [|exact I].
    destruct (H t Ht); split; [assumption|apply gives_yields; assumption].
  Qed.

  (** Every call keeps the books, and leaves a tree behind iff it gives an item. *)
  Definition booked (s s' : scoll Src T S) : Prop :=
    exists os, sc_asked s' = rev os ++ sc_asked s /\ os = polls poll (length os) (sc_source s) /\ sc_source s' = polled poll (length os) (sc_source s).
  Lemma booked_refl s : booked s s.
  Proof. exists []; repeat split. Qed.
  Lemma booked_trans a b c : booked a b -> booked b c -> booked a c.
  Proof.
    intros (os & H1 & H2 & H3) (os' & H4 & H5 & H6); exists (os ++ os').
    rewrite rev_app_distr, H4, H1, <- app_assoc; split; [reflexivity|].
    rewrite H3 in H5, H6; rewrite app_length.
    assert (Hp : forall m c0, polls poll (m + length os') c0 = polls poll m c0 ++ polls poll (length os') (polled poll m c0) /\
      polled poll (m + length os') c0 = polled poll (length os') (polled poll m c0)).
    { induction m as [|m IH]; intros c0; [split; reflexivity|]; cbn [plus polls polled]; destruct (poll c0) as [o c1]; cbn [snd].
      destruct (IH c1) as [-> ->]; split; reflexivity. }
    destruct (Hp (length os) (sc_source a)) as [-> ->]; rewrite <- H2, <- H5; split; [reflexivity|exact H6].
  Qed.
  Lemma booked_poll s o c cur : poll (sc_source s) = (o, c) -> booked s (mkSc c cur (o :: sc_asked s)).
  Proof. intros E; exists [o]; cbn; rewrite E; repeat split. Qed.
  Lemma scoll_next_books : forall F s o s', scoll_next poll new next F s = Ok (o, s') -> booked s s' /\ (o = None <-> sc_cur s' = None).
  Proof.
    unfold scoll_next; induction F as [|F IH]; intros s o s' H; [discriminate|]; cbn [loop] in H.
    assert (Htake : match scoll_next_tree poll new s with inl s1 => loop (scoll_body poll new next) F s1 | inr r => Ok r end = Ok (o, s') ->
      booked s s' /\ (o = None <-> sc_cur s' = None)).
    { unfold scoll_next_tree; destruct (poll (sc_source s)) as [[t|] c'] eqn:E; intros H1.
      - apply IH in H1 as [H1 H2]; split; [|exact H2]; eapply booked_trans; [apply booked_poll; exact E|exact H1].
      - injection H1 as <- <-; split; [apply booked_poll; exact E|split; reflexivity]. }
    unfold scoll_body at 1 in H; destruct (sc_cur s) as [it|] eqn:Ec.
    - destruct (next F it) as [[[v|] it']| | |]; cbn [bindR] in H; try discriminate; [|exact (Htake H)].
      injection H as <- <-; split; [|split; discriminate]; exists []; repeat split.
    - exact (Htake H).
  Qed.
  Lemma last_cons {B} (a d : B) l : last (a :: l) d = last l a.
  Proof. revert a d; induction l as [|b l IH]; intros a d; [reflexivity|]; change (last (a :: b :: l) d) with (last (b :: l) d); rewrite !IH; reflexivity. Qed.
  Lemma scoll_calls_books : forall k F s os s' d, calls (scoll_next poll new next) k s F = Ok (os, s') -> (d = None <-> sc_cur s = None) ->
    booked s s' /\ (last os d = None <-> sc_cur s' = None).
  Proof.
    induction k as [|k IH]; intros F s os s' d H Hs; cbn [calls] in H.
    { injection H as <- <-; split; [apply booked_refl|exact Hs]. }
    destruct (scoll_next poll new next F s) as [[o s1]| | |] eqn:E; cbn [bindR] in H; try discriminate.
    destruct (calls (scoll_next poll new next) k s1 F) as [[os1 s2]| | |] eqn:E1; cbn [bindR] in H; try discriminate.
    injection H as <- <-; apply scoll_next_books in E as [Hb Hc]; destruct (IH _ _ _ _ _ E1 Hc) as [Hb' Hc'].
    split; [eapply booked_trans; eassumption|]; rewrite last_cons; exact Hc'.
  Qed.
End Plain.

Section Context_.
  Context {Src T S A : Type}.
  Variable poll : Src -> option T * Src.
  Variable new : T -> list N -> S.
  Variable next : nat -> S -> Res (option A * S).
  Variable get : S -> option A.
  Hypothesis Hget : forall f s o s', next f s = Ok (o, s') -> get s' = o.
  Variable L : nat -> T -> list A.
  Definition cgood (n m i : nat) (c : Src) : Prop :=
    Forall (fun o => o) (mapi (fun x o => match o with Some t => L x t <> [] /\ gives next n (new t [N.of_nat x]) (L x t) | None => True end) i (polls poll m c)).

  Lemma cgood_le n' n m i c : n' <= n -> cgood n m i c -> cgood n' m i c.
  Proof.
    unfold cgood; intros Hn; revert i; generalize (polls poll m c); intros l; induction l as [|o l IH]; intros i H; [constructor|]; cbn [mapi] in *; inversion H as [|? ? H1 H2]; subst; constructor; [|apply IH; exact H2].
    destruct o as [t|]; [|exact I]; destruct H1; split; [assumption|eapply gives_le; eassumption].
  Qed.
  Lemma cgood_S n m i c o c' : poll c = (o, c') -> cgood n (Datatypes.S m) i c ->
    match o with Some t => L i t <> [] /\ gives next n (new t [N.of_nat i]) (L i t) | None => True end /\ cgood n m (Datatypes.S i) c'.
  Proof. unfold cgood; cbn [polls]; intros -> H; cbn [mapi] in H; inversion H; subst; auto. Qed.

  Lemma conv_get' it o it' : (fun f => next f it) ⇓ Ok (o, it') -> get it' = o.
  Proof. intros [F HF]; apply (Hget F it), HF, le_n. Qed.
  Local Notation snext := (scollc_next poll new next get).
  Lemma snext_of s s' o : (fun F => scollc_advance poll new next F s) ⇓ Ok s' -> scollc_get get s' = o -> (fun F => snext F s) ⇓ Ok (o, s').
  Proof. intros H <-; unfold scollc_next; eapply conv_bind; [exact H|now_conv]. Qed.

  Lemma ctake_tree n m i c asked : (N.of_nat i <= usize_max)%N -> cgood (Datatypes.S n) (Datatypes.S m) i c -> exists o c' s', poll c = (o, c') /\
    (fun F => scollc_advance poll new next F (mkScc c (enc i) None asked)) ⇓ Ok s' /\ scollc_get get s' = hd None (part L i o) /\
    scc_source s' = c' /\ scc_asked s' = o :: asked /\ scc_index s' = enc (Datatypes.S i) /\ cgood n m (Datatypes.S i) c' /\
    (match scc_cur s' with Some it => exists l, tl (part L i o) = map Some l /\ gives next n it l | None => tl (part L i o) = [] end) /\ part L i o <> [].
  Proof.
    intros Hi Hg; destruct (poll c) as [o c'] eqn:E; destruct (cgood_S _ m i c o c' E Hg) as [Ho Hg']; exists o, c'; apply (cgood_le n) in Hg'; [|lia].
    pose proof (enc_succ i Hi) as Ei.
    destruct o as [t|].
    - destruct Ho as [Hne Hn]; destruct (gives_S next n _ (L i t) Hn) as (it' & Hc & Hg2); pose proof (conv_get' _ _ _ Hc) as Hv.
      cbn [part]; destruct (L i t) as [|x l]; [congruence|]; cbn [hd_error tl map hd] in *.
      exists (mkScc c' (N.of_nat i) (Some it') (Some t :: asked)); split; [reflexivity|]; split; [|cbn; repeat split; try assumption; try discriminate; exists l; split; [reflexivity|exact Hg2]].
      eapply loop_step; [apply conv_eq; intros f; unfold scollc_body, scollc_next_tree; cbn [scc_cur scc_source scc_asked scc_index]; rewrite E, Ei; reflexivity|].
      apply loop_done; unfold scollc_body; cbn [scc_cur scc_source scc_asked scc_index]; eapply conv_bind; [exact Hc|now_conv].
    - exists (mkScc c' (N.of_nat i) None (None :: asked)); split; [reflexivity|]; split; [|cbn; repeat split; try assumption; discriminate].
      apply loop_done; apply conv_eq; intros f; unfold scollc_body, scollc_next_tree; cbn [scc_cur scc_source scc_asked scc_index]; rewrite E, Ei; reflexivity.
  Qed.

  Lemma scollc_run : forall n m i c cur asked l0, n <= m -> (N.of_nat (i + n) <= usize_max)%N -> cgood n m i c ->
    match cur with Some it => exists l, l0 = map Some l /\ gives next n it l | None => l0 = [] end ->
    exists s j, calls snext n (mkScc c (enc i) cur asked) ⇓ Ok (firstn n (l0 ++ from L i (polls poll m c)), s) /\
      scc_asked s = rev (polls poll j c) ++ asked /\ enough poll L n i l0 c j.
  Proof.
    induction n as [|n IH]; intros m i c cur asked l0 Hm Hi Hg Hcur.
    { eexists _, 0; split; [apply calls_0|]; split; [reflexivity|apply enough_0]. }
    destruct m as [|m]; [lia|].
    assert (Hnew : forall s1 o c', (fun F => scollc_advance poll new next F (mkScc c (enc i) cur asked)) ⇓ Ok s1 -> scollc_get get s1 = hd None (part L i o) -> poll c = (o, c') -> l0 = [] ->
      scc_source s1 = c' -> scc_asked s1 = o :: asked -> scc_index s1 = enc (Datatypes.S i) -> cgood n m (Datatypes.S i) c' ->
      (match scc_cur s1 with Some it => exists l, tl (part L i o) = map Some l /\ gives next n it l | None => tl (part L i o) = [] end) -> part L i o <> [] ->
      exists s j, calls snext (Datatypes.S n) (mkScc c (enc i) cur asked) ⇓ Ok (firstn (Datatypes.S n) (l0 ++ from L i (polls poll (Datatypes.S m) c)), s) /\
        scc_asked s = rev (polls poll j c) ++ asked /\ enough poll L (Datatypes.S n) i l0 c j).
    { intros s1 o c' Hs Hv E -> E1 E2 E3 Hg' Hc1 Hne; apply snext_of with (1 := Hs) in Hv; clear Hs; destruct s1 as [c1 i1 cur1 asked1]; cbn [scc_source scc_asked scc_cur scc_index] in *; subst c1 asked1 i1.
      destruct (IH m (Datatypes.S i) c' cur1 (o :: asked) _ ltac:(lia) ltac:(rewrite Nat.add_succ_r in Hi; exact Hi) Hg' Hc1) as (s & j & Hc & Ha & He).
      exists s, (Datatypes.S j).
      assert (Ep : part L i o = hd None (part L i o) :: tl (part L i o)) by (destruct (part L i o); [congruence|reflexivity]).
      split; [|split].
      - cbn [app polls]; rewrite E; unfold from; cbn [mapi concat]; fold (from L (Datatypes.S i) (polls poll m c')).
        rewrite Ep; cbn [app firstn]; exact (calls_S _ _ _ _ _ _ _ Hv Hc).
      - cbn [polls]; rewrite E, Ha; cbn [rev]; rewrite <- app_assoc; reflexivity.
      - eapply enough_poll; [exact E| |lia]; rewrite Ep; apply enough_item; exact He. }
    destruct cur as [it|].
    - destruct Hcur as (l & -> & Hit); destruct (gives_S next n it l Hit) as (it' & Hn & Hg2); pose proof (conv_get' _ _ _ Hn) as Hv.
      destruct l as [|x l]; cbn [hd_error tl map] in *.
      + destruct (ctake_tree n m i c asked ltac:(lia) Hg) as (o & c' & s1 & E & Hs & H0 & H1 & H2 & H3 & H4 & H5 & H6).
        apply (Hnew s1 o c'); auto.
        destruct Hs as [[|F] HF]; [specialize (HF 0 (le_n _)); discriminate|]; destruct Hn as [G HG]; exists (Datatypes.S (F + G)); intros f Hf.
        destruct f as [|f]; [lia|]; unfold scollc_advance; cbn [loop]; unfold scollc_body at 1; cbn [scc_cur scc_source scc_asked scc_index]; rewrite HG by lia; cbn [bindR].
        specialize (HF (Datatypes.S f) ltac:(lia)); unfold scollc_advance in HF; cbn [loop] in HF; unfold scollc_body at 1 in HF; cbn [scc_cur scc_source scc_asked scc_index bindR] in HF; exact HF.
      + destruct (IH (Datatypes.S m) i c (Some it') asked (map Some l)) as (s & j & Hc & Ha & He); [lia|lia|eapply cgood_le; [|exact Hg]; lia|exists l; split; [reflexivity|exact Hg2]|].
        exists s, j; split; [|split; [exact Ha|apply enough_item; exact He]].
        cbn [app firstn map]; eapply calls_S; [|exact Hc].
        apply snext_of; [|exact Hv].
        apply loop_done; unfold scollc_body; cbn [scc_cur scc_source scc_asked scc_index]; eapply conv_bind; [exact Hn|now_conv].
    - subst l0; destruct (ctake_tree n m i c asked ltac:(lia) Hg) as (o & c' & s1 & E & Hs & H0 & H1 & H2 & H3 & H4 & H5 & H6).
      exact (Hnew s1 o c' Hs H0 E eq_refl H1 H2 H3 H4 H5 H6).
  Qed.

  Lemma scollc_all k c : (N.of_nat k <= usize_max)%N -> cgood k k 0 c ->
    goes_over poll L snext scc_asked c (mkScc c usize_max None []) k.
  Proof.
    intros Hk Hg; destruct (scollc_run k k 0 c None [] [] (le_n _) Hk Hg eq_refl) as (s & j & Hc & Ha & He).
    exists s, j; split; [exact Hc|]; split; [rewrite Ha, app_nil_r, rev_involutive; reflexivity|exact He].
  Qed.

  Lemma scollc_all_yields k c : (N.of_nat k <= usize_max)%N ->
    (forall i t, In (Some t) (polls poll k c) -> L i t <> [] /\ yields next (new t [N.of_nat i]) (L i t)) ->
    goes_over poll L snext scc_asked c (mkScc c usize_max None []) k.
  Proof.
    intros Hk H; apply scollc_all; [exact Hk|]; unfold cgood; revert H; generalize (polls poll k c) 0; intros os.
    induction os as [|o os IH]; intros x H; cbn [mapi]; constructor; [|apply IH; intros i t Ht; apply H; right; exact Ht].
    destruct o as [t|]; [|exact I]; destruct (H x t (or_introl eq_refl)); split; [assumption|apply gives_yields; assumption].
  Qed.
End Context_.
