(** * The [leaves()] iterators over trees that are made as they are traversed: breadth first. *)
From Verif Require Import Prelim PrelimFacts Spec SpecFacts SpecObs SpecLazy SpecLazyLeaves ModelNode NodeFacts ModelPre ModelPost ModelBfs ModelLazy ModelLazyLeaves FuelMono.
From Verif Require Import ProofsPlain ProofsLazy ProofsLazyCtx ProofsLazyInst ProofsLazyRun ProofsLazyBin ProofsLazyDeep ProofsLazyLeaves.

Lemma nth_error_skipn_add {Y} (l : list Y) i q : nth_error (skipn i l) q = nth_error l (i + q).
Proof. revert l; induction i as [|i IH]; intros l; [reflexivity|]; destruct l as [|y l]; [destruct q; reflexivity|]; exact (IH l). Qed.
Lemma nth_error_firstn_lt {Y} (l : list Y) n q : q < n -> nth_error (firstn n l) q = nth_error l q.
Proof. revert l q; induction n as [|n IH]; intros l q Hq; [lia|]; destruct l as [|y l]; [reflexivity|]; destruct q as [|q]; [reflexivity|]; cbn; apply IH; lia. Qed.
Lemma skipn_skipn_add {Y} (l : list Y) a b : skipn a (skipn b l) = skipn (a + b) l.
Proof. revert l; induction b as [|b IH]; intros l; [rewrite Nat.add_0_r; reflexivity|]; rewrite Nat.add_succ_r; destruct l as [|y l]; [destruct a; reflexivity|]; exact (IH l). Qed.

(** *** Turns of a loop *)
Fixpoint turns {S R} (body : nat -> S -> Res (S + R)) (k : nat) (s s' : S) : Prop :=
  match k with
  | 0 => s = s'
  | Datatypes.S k' => exists t, (fun f => body f s) ⇓ Ok (inl t) /\ turns body k' t s'
  end.
Lemma turns_app {S R} (body : nat -> S -> Res (S + R)) : forall a b s t u, turns body a s t -> turns body b t u -> turns body (a + b) s u.
Proof. induction a as [|a IH]; intros b s t u; [intros -> H; exact H|]; intros (v & H1 & H2) H3; exists v; split; [exact H1|exact (IH _ _ _ _ H2 H3)]. Qed.
Lemma turns_then {S R} (body : nat -> S -> Res (S + R)) : forall k s s', turns body k s s' -> forall r, (fun f => loop body f s') ⇓ r -> (fun f => loop body f s) ⇓ r.
Proof. induction k as [|k IH]; intros s s'; [intros <-; auto|]; intros (t & H1 & H2) r Hr; eapply loop_step; [exact H1|exact (IH _ _ H2 r Hr)]. Qed.
Lemma turns_fuel {S R} (body : nat -> S -> Res (S + R)) : (forall s, more (fun f => body f s)) ->
  forall F k s s', turns body k s s' -> F <= k -> loop body F s = OutOfFuel.
Proof.
  intros Hb; induction F as [|F IH]; intros k s s' Ht Hk; [reflexivity|]; destruct k as [|k]; [lia|]; destruct Ht as (t & [F0 H1] & H2); cbn [loop].
  assert (E : body F s = OutOfFuel \/ body F s = Ok (inl t)).
  { specialize (Hb s F (F + F0) ltac:(lia)); pose proof (H1 (F + F0) ltac:(lia)) as H0; cbv beta in H0, Hb; rewrite H0 in Hb; destruct (body F s); auto; right; symmetry; apply Hb; discriminate. }
  destruct E as [-> | ->]; [reflexivity|]; apply (IH k t s' H2); lia.
Qed.

(** *** An iterator that gives some of what another gives *)
Section Sieve.
  Context {S1 S2 O X Nd : Type}.
  Variables (next1 : nat -> S1 -> Res (option O * S1)) (next2 : nat -> S2 -> Res (option O * S2)).
  Variables (Q : list X) (f : X -> O) (node : X -> Nd) (leaf : X -> bool) (j : nat).
  Variable St : nat -> S1 -> Prop.
  Variable R : S2 -> S1 -> Prop.
  Variable E : S2 -> Prop.
  Variable log : S2 -> list Nd.
  Hypothesis H1 : forall i s1, i < j -> i <= length Q -> St i s1 ->
    exists s1', (fun F => next1 F s1) ⇓ Ok (nth_error (map f Q) i, s1') /\ (i < length Q -> St (S i) s1').
  Hypothesis Hstep : forall i s1 s2 s1' x, St i s1 -> nth_error Q i = Some x -> (fun F => next1 F s1) ⇓ Ok (Some (f x), s1') -> St (S i) s1' -> R s2 s1 ->
    exists s2', R s2' s1' /\ if leaf x then (fun F => next2 F s2) ⇓ Ok (Some (f x), s2') else forall r, (fun F => next2 F s2') ⇓ r -> (fun F => next2 F s2) ⇓ r.
  Hypothesis Hend : forall s1 s2 s1', St (length Q) s1 -> (fun F => next1 F s1) ⇓ Ok (None, s1') -> R s2 s1 ->
    exists s2', (fun F => next2 F s2) ⇓ Ok (None, s2') /\ E s2' /\ log s2' = log s2.
  Hypothesis HE : forall s2, E s2 -> exists s2', (fun F => next2 F s2) ⇓ Ok (None, s2') /\ E s2' /\ log s2' = log s2.
  Hypothesis Hlog : forall i s1 s2, St (S i) s1 -> R s2 s1 -> S i <= length Q -> rev (log s2) = map node (firstn (S i) Q).

  Lemma skipn_cons_nth {Y} (l : list Y) i x l' : skipn i l = x :: l' -> nth_error l i = Some x /\ skipn (S i) l = l' /\ i < length l.
  Proof.
    revert i; induction l as [|y l IH]; intros [|i]; cbn [skipn nth_error]; try discriminate; [intros [= -> ->]; cbn; repeat split; lia|].
    intros H; destruct (IH i H) as (A1 & A2 & A3); cbn [length]; repeat split; auto; lia.
  Qed.

  Lemma sieve_one : forall A D i s1 s2, skipn i Q = A ++ D -> i <= length Q -> Forall (fun x => leaf x = false) A -> St i s1 -> R s2 s1 ->
    match D with
    | c :: D' => leaf c = true -> i + length A < j -> exists s2' s1', (fun F => next2 F s2) ⇓ Ok (Some (f c), s2') /\ R s2' s1' /\ St (S (i + length A)) s1'
    | [] => i + length A < j -> exists s2' s1' s2'', (fun F => next2 F s2) ⇓ Ok (None, s2') /\ E s2' /\ log s2' = log s2'' /\ R s2'' s1' /\ St (length Q) s1'
    end.
  Proof.
    induction A as [|a A IH]; intros D i s1 s2 HQ Hi HA HS HR.
    - destruct D as [|c D]; [intros Hj|intros Hc Hj]; cbn [length app] in *; rewrite Nat.add_0_r in *.
      + assert (Ei : i = length Q) by (apply (f_equal (@length _)) in HQ; rewrite skipn_length in HQ; cbn in HQ; lia); subst i.
        destruct (H1 _ _ Hj (le_n _) HS) as (s1' & Hn & _).
        rewrite (proj2 (nth_error_None (map f Q) (length Q))) in Hn by (rewrite map_length; lia).
        destruct (Hend _ _ _ HS Hn HR) as (s2' & H2 & H3 & H4); exists s2', s1, s2; repeat split; auto.
      + destruct (skipn_cons_nth _ _ _ _ HQ) as (Hx & HQ' & Hlt).
        destruct (H1 _ _ Hj ltac:(lia) HS) as (s1' & Hn & HS'); rewrite nth_error_map, Hx in Hn; cbn [option_map] in Hn.
        destruct (Hstep _ _ _ _ _ HS Hx Hn (HS' Hlt) HR) as (s2' & HR' & H2); rewrite Hc in H2; exists s2', s1'; auto.
    - cbn [app] in HQ; destruct (skipn_cons_nth _ _ _ _ HQ) as (Hx & HQ' & Hlt); inversion HA as [|? ? Ha HA']; subst.
      assert (Hgo : i < j -> exists s1' s2', R s2' s1' /\ St (S i) s1' /\ forall r, (fun F => next2 F s2') ⇓ r -> (fun F => next2 F s2) ⇓ r).
      { intros Hj; destruct (H1 _ _ Hj ltac:(lia) HS) as (s1' & Hn & HS'); rewrite nth_error_map, Hx in Hn; cbn [option_map] in Hn.
        destruct (Hstep _ _ _ _ _ HS Hx Hn (HS' Hlt) HR) as (s2' & HR' & H2); rewrite Ha in H2; exists s1', s2'; auto. }
      destruct D as [|c D]; [intros Hj|intros Hc Hj]; cbn [length] in Hj; destruct (Hgo ltac:(lia)) as (s1' & s2' & HR' & HS' & Hthen);
        specialize (IH _ (S i) s1' s2' HQ' ltac:(lia) HA' HS' HR'); cbn beta iota in IH.
      + destruct (IH ltac:(lia)) as (t2 & t1 & u2 & H2 & H3); exists t2, t1, u2; split; [apply Hthen, H2|exact H3].
      + destruct (IH Hc ltac:(lia)) as (t2 & t1 & H2 & H3 & H4); exists t2, t1; split; [apply Hthen, H2|split; [exact H3|]].
        cbn [length]; rewrite Nat.add_succ_r; exact H4.
  Qed.

  Lemma sieve_split (l : list X) : (exists A c D, l = A ++ c :: D /\ Forall (fun x => leaf x = false) A /\ leaf c = true) \/ Forall (fun x => leaf x = false) l.
  Proof.
    induction l as [|c l IH]; [right; constructor|]; destruct (leaf c) eqn:Ec; [left; exists [], c, l; auto|].
    destruct IH as [(A & c' & B & -> & HA & Hc)|H]; [left; exists (c :: A), c', B; auto|right; auto].
  Qed.
  Lemma sieve_none (A : list X) : Forall (fun c => leaf c = false) A -> filter leaf A = [].
  Proof. induction 1 as [|c A Hc H IH]; [reflexivity|]; cbn [filter]; rewrite Hc; exact IH. Qed.

  Lemma sieve_ended : forall k s2, E s2 -> exists s2', calls next2 k s2 ⇓ Ok (map (nth_error []) (seq 0 k), s2') /\ log s2' = log s2.
  Proof.
    induction k as [|k IH]; intros s2 He; [exists s2; split; [apply calls_0|reflexivity]|].
    destruct (HE _ He) as (t2 & H2 & He' & Hl); destruct (IH t2 He') as (u2 & H3 & Hl'); exists u2; split; [|congruence].
    rewrite outs_nil; exact (calls_S _ _ _ _ _ _ _ H2 H3).
  Qed.

  Lemma sieve_calls : 0 < length Q -> forall k i s1 s2, St i s1 -> R s2 s1 -> i <= length Q ->
    k <= length (filter leaf (skipn i (firstn j Q))) \/ length Q < j ->
    exists s2', calls next2 k s2 ⇓ Ok (map (nth_error (map f (filter leaf (skipn i Q)))) (seq 0 k), s2') /\
      (k = 0 -> log s2' = log s2) /\
      (forall p x, i <= p -> nth_error Q p = Some x -> leaf x = true -> length (filter leaf (skipn i (firstn (S p) Q))) = k -> rev (log s2') = map node (firstn (S p) Q)) /\
      (length (filter leaf (skipn i Q)) < k -> rev (log s2') = map node Q).
  Proof.
    intros HQ0; induction k as [|k IH]; intros i s1 s2 HS HR Hi Hk.
    - exists s2; split; [apply calls_0|]; split; [reflexivity|]; split; [|lia]; intros p x Hip Hp Hx Hl; exfalso.
      rewrite skipn_firstn_comm in Hl; assert (Hin : In x (filter leaf (firstn (S p - i) (skipn i Q)))).
      { apply filter_In; split; [|exact Hx]; apply nth_error_In with (p - i); rewrite <- skipn_firstn_comm.
        rewrite nth_error_skipn_add; replace (i + (p - i)) with p by lia; rewrite nth_error_firstn_lt by lia; exact Hp. }
      destruct (filter leaf (firstn (S p - i) (skipn i Q))); [destruct Hin|discriminate].
    - destruct (sieve_split (skipn i Q)) as [(A & c & D & HQ & HA & Hc)|HA].
      + assert (Hj : i + length A < j).
        { destruct Hk as [Hk|Hk]; [|apply (f_equal (@length _)) in HQ; rewrite skipn_length, app_length in HQ; cbn in HQ; lia].
          destruct (Nat.lt_ge_cases (i + length A) j) as [|Hge]; [assumption|exfalso].
          rewrite skipn_firstn_comm, HQ, firstn_app, (proj2 (Nat.sub_0_le _ _) (ltac:(lia) : j - i <= length A)), app_nil_r in Hk; cbn [firstn] in Hk.
          rewrite <- (firstn_skipn (j - i) A) in HA; apply Forall_app in HA as [HA _]; rewrite (sieve_none _ HA) in Hk; cbn in Hk; lia. }
        destruct (sieve_one A (c :: D) i s1 s2 HQ Hi HA HS HR Hc Hj) as (t2 & t1 & H2 & HR' & HS').
        assert (HQ' : skipn (S (i + length A)) Q = D /\ S (i + length A) <= length Q).
        { split; [|apply (f_equal (@length _)) in HQ; rewrite skipn_length, app_length in HQ; cbn in HQ; lia].
          replace (S (i + length A)) with (S (length A) + i) by lia; rewrite <- skipn_skipn_add, HQ.
          replace (S (length A)) with (length (A ++ [c])) by (rewrite app_length; cbn; lia).
          replace (A ++ c :: D) with ((A ++ [c]) ++ D) by (rewrite <- app_assoc; reflexivity); rewrite skipn_app, skipn_all, Nat.sub_diag; reflexivity. }
        destruct HQ' as [HD Hle].
        assert (Hsplit : forall q, S (i + length A) <= q -> filter leaf (skipn i (firstn q Q)) = c :: filter leaf (skipn (S (i + length A)) (firstn q Q))).
        { intros q Hq; rewrite !skipn_firstn_comm, HQ, HD, firstn_app, firstn_all2, filter_app, (sieve_none _ HA) by lia; cbn [app].
          replace (q - i - length A) with (S (q - S (i + length A))) by lia; cbn [firstn filter]; rewrite Hc; reflexivity. }
        destruct (IH (S (i + length A)) t1 t2 HS' HR' Hle) as (u2 & H3 & Hz & HL1 & HL2).
        { destruct Hk as [Hk|Hk]; [left|right; exact Hk]; rewrite (Hsplit j Hj) in Hk; cbn [length] in Hk; lia. }
        exists u2; split; [|split; [discriminate|split]].
        * rewrite HQ, filter_app, (sieve_none _ HA); cbn [filter app]; rewrite Hc; cbn [map]; rewrite outs_S, <- HD; exact (calls_S _ _ _ _ _ _ _ H2 H3).
        * intros p x Hip Hp Hx Hlen.
          destruct (Nat.lt_trichotomy p (i + length A)) as [Hlt|[->|Hgt]].
          -- exfalso; rewrite Forall_forall in HA; specialize (HA x); rewrite HA in Hx; [discriminate|].
             apply nth_error_In with (p - i); replace (nth_error A (p - i)) with (nth_error (A ++ c :: D) (p - i)) by (rewrite nth_error_app1 by lia; reflexivity).
             rewrite <- HQ, nth_error_skipn_add; replace (i + (p - i)) with p by lia; exact Hp.
          -- rewrite (Hsplit _ (le_n _)), skipn_firstn_comm, Nat.sub_diag in Hlen; cbn in Hlen; injection Hlen as <-.
             rewrite (Hz eq_refl); apply (Hlog _ t1); auto.
          -- apply (HL1 p x); auto; rewrite (Hsplit (S p)) in Hlen by lia; cbn [length] in Hlen; lia.
        * intros Hlt; apply HL2; rewrite HQ, filter_app, (sieve_none _ HA) in Hlt; cbn [filter app] in Hlt; rewrite Hc in Hlt; cbn [length] in Hlt; rewrite HD; lia.
      + assert (Hj : i + length (skipn i Q) < j).
        { destruct Hk as [Hk|Hk]; [|rewrite skipn_length; lia]; exfalso.
          rewrite skipn_firstn_comm in Hk; rewrite <- (firstn_skipn (j - i) (skipn i Q)) in HA; apply Forall_app in HA as [HA _]; rewrite (sieve_none _ HA) in Hk; cbn in Hk; lia. }
        destruct (sieve_one (skipn i Q) [] i s1 s2 ltac:(rewrite app_nil_r; reflexivity) Hi HA HS HR Hj) as (t2 & t1 & v2 & H2 & He & Hl & HR' & HS').
        destruct (sieve_ended k t2 He) as (u2 & H3 & Hl').
        exists u2; split; [|split; [discriminate|split]].
        * rewrite (sieve_none _ HA); cbn [map]; rewrite outs_nil; exact (calls_S _ _ _ _ _ _ _ H2 H3).
        * intros p x Hip Hp Hx; exfalso; rewrite Forall_forall in HA; specialize (HA x); rewrite HA in Hx; [discriminate|].
          apply nth_error_In with (p - i); rewrite nth_error_skipn_add; replace (i + (p - i)) with p by lia; exact Hp.
        * intros _; rewrite Hl', Hl; destruct (length Q) as [|q] eqn:EQ; [lia|].
          rewrite (Hlog q t1 v2 HS' HR' ltac:(lia)), <- EQ, firstn_all; reflexivity.
  Qed.
End Sieve.

Lemma calls_plus {S O} (next : nat -> S -> Res (O * S)) F : forall a b s, calls next (a + b) s F = bindR (calls next a s F) (fun '(os, s') => bindR (calls next b s' F) (fun '(os', s'') => Ok (os ++ os', s''))).
Proof.
  induction a as [|a IH]; intros b s; cbn [Nat.add calls].
  - cbn [bindR]; destruct (calls next b s F) as [[os t]| | |]; reflexivity.
  - destruct (next F s) as [[o t]| | |]; cbn [bindR]; try reflexivity; rewrite IH.
    destruct (calls next a t F) as [[os u]| | |]; cbn [bindR]; try reflexivity; destruct (calls next b u F) as [[os' v]| | |]; reflexivity.
Qed.
Lemma calls_snoc_inv {S O} (next : nat -> S -> Res (O * S)) i s0 os s os' s' : calls next i s0 ⇓ Ok (os, s) -> calls next (Datatypes.S i) s0 ⇓ Ok (os', s') ->
  exists o, (fun F => next F s) ⇓ Ok (o, s') /\ os' = os ++ [o].
Proof.
  intros [F1 E1] [F2 E2].
  assert (HF : forall F, F1 + F2 <= F -> exists o, next F s = Ok (o, s') /\ os' = os ++ [o]).
  { intros F HF; specialize (E1 F ltac:(lia)); specialize (E2 F ltac:(lia)); rewrite <- Nat.add_1_r, calls_plus, E1 in E2; cbn [bindR calls] in E2.
    destruct (next F s) as [[o t]| | |]; try discriminate; cbn [bindR] in E2; injection E2 as <- <-; eauto. }
  destruct (HF _ (le_n _)) as (o & _ & Eo); exists o; split; [|exact Eo]; exists (F1 + F2); intros F H; destruct (HF F H) as (o' & E & Eo').
  rewrite Eo in Eo'; apply app_inj_tail in Eo' as [_ <-]; exact E.
Qed.

Section Breadth.
  Context {Nd V C It : Type}.
  Variable gv : Nd -> V * C.
  Variable into_iter : C -> It.
  Variable poll : It -> option Nd * It.
  Local Notation value := (nval gv).
  Local Notation kids n := (into_iter (nkids gv n)).
  Local Notation childless := (childless gv into_iter poll).

  (** What a peekable stands for *)
  Definition pkr (p : peekable Nd It) (it : It) : Prop := p = (None, it) \/ p = (Some (fst (poll it)), snd (poll it)).
  Lemma pkr_next p it : pkr p it -> pk_next poll p = (fst (poll it), (None, snd (poll it))).
  Proof. intros [->| ->]; cbn [pk_next]; [destruct (poll it); reflexivity|reflexivity]. Qed.
  Lemma pkr_new it : pkr (pk_new it) it.
  Proof. left; reflexivity. Qed.
  Lemma pkr_peek n : pk_peek poll (pk_new (kids n)) = (fst (poll (kids n)), (Some (fst (poll (kids n))), snd (poll (kids n)))) /\ is_some (fst (poll (kids n))) = negb (childless n).
  Proof. unfold pk_peek, pk_new, SpecLazyLeaves.childless; fold (nkids gv n); destruct (poll (kids n)) as [[c|] it]; split; reflexivity. Qed.
  Lemma pkr_peeked it : pkr (Some (fst (poll it)), snd (poll it)) it.
  Proof. right; reflexivity. Qed.

  (** *** Plain *)
  Definition Rlbl (s : lbl Nd It) (s1 : lbfs Nd It) : Prop :=
    lbl_log s = lb_log s1 /\ lbl_root s = lb_root s1 /\ exists its, lb_queue s1 = lbl_old s ++ its /\ Forall2 pkr (lbl_new s) its.
  Definition Elbl (s : lbl Nd It) : Prop := lbl_root s = None /\ lbl_old s = [] /\ lbl_new s = [].

  Definition lbl_says (x : option V) (s1 s1' : lbfs Nd It) (s s' : lbl Nd It) (y : option (bool * V)) : Prop :=
    Rlbl s' s1' /\
    match x with
    | None => y = None /\ Elbl s' /\ lbl_log s' = lbl_log s
    | Some v => exists nd, lb_log s1' = nd :: lb_log s1 /\ y = Some (negb (childless nd), v)
    end.
  Lemma lbl_bfs_loop F : forall q s x s1', lbl_root s = None -> (exists its, q = lbl_old s ++ its /\ Forall2 pkr (lbl_new s) its) ->
    loop (lbfs_body gv into_iter poll (lbl_log s)) F q = Ok (x, s1') ->
    exists y s', loop (lbl_bfs_body gv into_iter poll) F s = Ok (y, s') /\ lbl_says x (mkLbfs (lbl_log s) None q) s1' s s' y.
  Proof.
    induction F as [|F IH]; intros q s x s1' Hr (its & Hq & Hits); [discriminate|]; cbn [loop]; unfold lbfs_body at 1, lbl_bfs_body at 1.
    destruct s as [log r old new]; cbn [lbl_log lbl_root lbl_old lbl_new] in *; subst r.
    destruct old as [|it old]; cbn [app] in Hq.
    - destruct Hits as [|p it new its Hp Hits]; subst q.
      + intros [= <- <-]; do 2 eexists; split; [reflexivity|]; split; [|repeat split]; repeat split; exists []; split; [reflexivity|constructor].
      + rewrite (pkr_next _ _ Hp); destruct (poll it) as [[n|] it'] eqn:Ep; cbn [fst snd].
        * rewrite (gv_eq gv n); destruct (pkr_peek n) as [-> ->]; intros [= <- <-]; do 2 eexists; split; [reflexivity|]; split; [|exists n; split; reflexivity].
          repeat split; exists ((it' :: its) ++ [kids n]); split; [reflexivity|]; cbn [lbl_new]; apply Forall2_app; [constructor; [apply pkr_new|exact Hits]|constructor; [apply pkr_peeked|constructor]].
        * intros H; apply (IH _ (mkLbl log None [] new)) in H; [exact H|reflexivity|exists its; split; [reflexivity|exact Hits]].
    - subst q; destruct (poll it) as [[n|] it'] eqn:Ep.
      + rewrite (gv_eq gv n); destruct (pkr_peek n) as [-> ->]; intros [= <- <-]; do 2 eexists; split; [reflexivity|]; split; [|exists n; split; reflexivity].
        repeat split; exists (its ++ [kids n]); cbn [lb_queue lbl_old lbl_new]; split; [cbn [app]; rewrite <- app_assoc; reflexivity|].
        apply Forall2_app; [exact Hits|constructor; [apply pkr_peeked|constructor]].
      + intros H; apply (IH _ (mkLbl log None old new)) in H; [exact H|reflexivity|exists its; split; [reflexivity|exact Hits]].
  Qed.
  Lemma lbl_bfs_sim F s s1 x s1' : Rlbl s s1 -> lbfs_next gv into_iter poll F s1 = Ok (x, s1') ->
    exists y s', lbl_bfs_next gv into_iter poll F s = Ok (y, s') /\ lbl_says x s1 s1' s s' y.
  Proof.
    intros (Hl & Hr & Hq); unfold lbfs_next, lbl_bfs_next; rewrite Hr; destruct (lb_root s1) as [n|] eqn:Er.
    - rewrite (gv_eq gv n); destruct (pkr_peek n) as [-> ->]; intros [= <- <-]; do 2 eexists; split; [reflexivity|].
      destruct Hq as (its & Hq & Hits); split; [|exists n; split; reflexivity]; split; [cbn; congruence|split; [reflexivity|]].
      exists (its ++ [kids n]); cbn [lb_queue lbl_old lbl_new]; split; [rewrite Hq, <- app_assoc; reflexivity|].
      apply Forall2_app; [exact Hits|constructor; [apply pkr_peeked|constructor]].
    - rewrite <- Hl; intros H; apply lbl_bfs_loop in H; [|exact Hr|exact Hq].
      destruct H as (y & s' & H & HR & Hx); exists y, s'; split; [exact H|split; [exact HR|]].
      destruct x; [|exact Hx]; cbn [lb_log] in Hx; rewrite <- Hl; exact Hx.
  Qed.
  Lemma more_lbl_bfs s : more (fun f => lbl_bfs_next gv into_iter poll f s).
  Proof.
    unfold lbl_bfs_next; destruct (lbl_root s) as [n|]; [rewrite (gv_eq gv n); destruct (pkr_peek n) as [-> _]; apply more_const|].
    apply more_loop; intros t ? ? _ _; reflexivity.
  Qed.
  Lemma lbl_bfs_conv s s1 x s1' : Rlbl s s1 -> (fun F => lbfs_next gv into_iter poll F s1) ⇓ Ok (x, s1') ->
    exists y s', (fun F => lbl_bfs_next gv into_iter poll F s) ⇓ Ok (y, s') /\ lbl_says x s1 s1' s s' y.
  Proof.
    intros HR [F HF]; destruct (lbl_bfs_sim F s s1 x s1' HR (HF F (le_n F))) as (y & s' & H & Hs); exists y, s'; split; [|exact Hs].
    apply more_conv with F; [apply more_lbl_bfs|exact H|discriminate].
  Qed.

  Section Plain.
    Variables (n : Nd) (B : list Nd) (j : nat).
    Local Notation s0 := (lbfs_new n).
    Hypothesis Hrun : forall k, k <= j -> exists s, calls (lbfs_next gv into_iter poll) k s0 ⇓ Ok (map (nth_error (map value B)) (seq 0 k), s) /\ rev (lb_log s) = firstn k B.
    Definition Stb (i : nat) (s : lbfs Nd It) : Prop := after (lbfs_next gv into_iter poll) i s0 s /\ i <= j.

    Lemma Stb_log i s : Stb i s -> calls (lbfs_next gv into_iter poll) i s0 ⇓ Ok (map (nth_error (map value B)) (seq 0 i), s) /\ rev (lb_log s) = firstn i B.
    Proof. intros [[os H] Hi]; destruct (Hrun i Hi) as (s' & H' & Hl); pose proof (conv_fun _ _ _ H H') as E; injection E as -> ->; auto. Qed.
    Lemma Stb_step i s1 : i < j -> i <= length B -> Stb i s1 ->
      exists s1', (fun F => lbfs_next gv into_iter poll F s1) ⇓ Ok (nth_error (map value B) i, s1') /\ (i < length B -> Stb (S i) s1').
    Proof.
      intros Hi _ HS; destruct (Stb_log _ _ HS) as [H _]; destruct (Hrun (S i) Hi) as (s' & H' & _).
      destruct (calls_snoc_inv _ _ _ _ _ _ _ H H') as (o & Ho & E); rewrite seq_S, map_app in E; cbn [map Nat.add] in E; apply app_inj_tail in E as [_ <-].
      exists s'; split; [exact Ho|]; intros _; split; [eexists; exact H'|exact Hi].
    Qed.

    Lemma lbl_hstep i' t1 t2 t1' x : Stb i' t1 -> nth_error B i' = Some x -> (fun F => lbfs_next gv into_iter poll F t1) ⇓ Ok (Some (value x), t1') -> Stb (S i') t1' -> Rlbl t2 t1 ->
      exists t2', Rlbl t2' t1' /\ if childless x then (fun F => lbl_next gv into_iter poll F t2) ⇓ Ok (Some (value x), t2') else turns (lbl_body gv into_iter poll) 1 t2 t2'.
    Proof.
      intros Hi1 Hx Hn Hi2 HR; destruct (lbl_bfs_conv _ _ _ _ HR Hn) as (y & t2' & H2 & HR' & nd & El & ->); exists t2'; split; [exact HR'|].
      assert (nd = x) as ->.
      { apply Stb_log in Hi1 as [_ L1]; apply Stb_log in Hi2 as [_ L2]; rewrite El in L2; cbn [rev] in L2; rewrite L1 in L2.
        assert (Es : firstn (S i') B = firstn i' B ++ [x]).
        { clear -Hx; revert i' Hx; induction B as [|b l IH]; intros [|i]; cbn [nth_error]; try discriminate; [intros [= ->]; reflexivity|].
          intros H; cbn [firstn app]; f_equal; apply IH, H. }
        rewrite Es in L2; apply app_inj_tail in L2 as [_ ->]; reflexivity. }
      destruct (childless x) eqn:Ec; unfold lbl_next.
      - apply loop_done; unfold lbl_body; eapply conv_bind; [exact H2|]; apply conv_eq; intros; reflexivity.
      - eexists; split; [unfold lbl_body; eapply conv_bind; [exact H2|]; apply conv_eq; intros; reflexivity|reflexivity].
    Qed.

    Lemma lbl_sieve k i s1 : 0 < length B -> Stb i s1 -> i <= length B -> k <= length (filter childless (skipn i (firstn j B))) \/ length B < j ->
      exists s, calls (lbl_next gv into_iter poll) k (lbfs_leaves s1) ⇓ Ok (map (nth_error (map value (filter childless (skipn i B)))) (seq 0 k), s) /\
        (k = 0 -> lbl_log s = lb_log s1) /\
        (forall p x, i <= p -> nth_error B p = Some x -> childless x = true -> length (filter childless (skipn i (firstn (S p) B))) = k -> rev (lbl_log s) = firstn (S p) B) /\
        (length (filter childless (skipn i B)) < k -> rev (lbl_log s) = B).
    Proof.
      intros HB HS Hi Hk.
      destruct (sieve_calls (lbfs_next gv into_iter poll) (lbl_next gv into_iter poll) B value (fun x => x) childless j Stb Rlbl Elbl (@lbl_log Nd It) Stb_step) with (k := k) (i := i) (s1 := s1) (s2 := lbfs_leaves s1) as (s & H & Hz & HL1 & HL2); auto.
      - intros i' t1 t2 t1' x Hi1 Hx Hn Hi2 HR; destruct (lbl_hstep _ _ _ _ _ Hi1 Hx Hn Hi2 HR) as (t2' & HR' & H2); exists t2'; split; [exact HR'|].
        destruct (childless x); [exact H2|exact (turns_then _ _ _ _ H2)].
      - intros t1 t2 t1' _ Hn HR; destruct (lbl_bfs_conv _ _ _ _ HR Hn) as (y & t2' & H2 & HR' & -> & HE & Hl); exists t2'; repeat split; try apply HE; auto.
        unfold lbl_next; apply loop_done; unfold lbl_body; eapply conv_bind; [exact H2|]; apply conv_eq; intros; reflexivity.
      - intros [log r old new] (Hr & Ho & Hn); cbn in Hr, Ho, Hn; subst; eexists; split; [|split; [|]].
        + unfold lbl_next; apply loop_done; unfold lbl_body; eapply conv_bind; [unfold lbl_bfs_next; cbn [lbl_root]; apply loop_done; apply conv_eq; reflexivity|]; apply conv_eq; intros; reflexivity.
        + repeat split.
        + reflexivity.
      - intros i' t1 t2 HSi (Hl & _) _; rewrite Hl, map_id; exact (proj2 (Stb_log _ _ HSi)).
      - split; [reflexivity|split; [reflexivity|]]; exists []; split; [cbn; rewrite app_nil_r; reflexivity|constructor].
      - exists s; split; [exact H|]; split; [exact Hz|]; split.
        + intros p x Hp1 Hp2 Hp3 Hp4; rewrite (HL1 p x Hp1 Hp2 Hp3 Hp4); apply map_id.
        + intros Hlt; rewrite (HL2 Hlt); apply map_id.
    Qed.
  End Plain.

  (** *** With ancestors *)
  Definition got_items (items : list V) : option (list V) := match items with [] => None | v :: l => Some (rev (v :: l)) end.
  Definition same (s : lbal Nd V It) (s1 : lbfsa Nd V It) : Prop :=
    lbal_log s = lba_log s1 /\ lbal_items s = lba_items s1 /\ lbal_cache s = lba_cache s1 /\ lbal_stack s = lba_stack s1.
  Definition R0 (s : lbal Nd V It) (s1 : lbfsa Nd V It) : Prop :=
    same s s1 /\ Forall2 pkr (lbal_queue s) (lba_queue s1) /\ lba_is_root s1 = false /\
    (lbal_is_root s = true -> match lba_queue s1 with it :: _ => fst (poll it) <> None | [] => False end).
  Definition Elbal (s : lbal Nd V It) : Prop := lbal_queue s = [].

  Lemma lbal_step_none s it p q items cache stack items' cache' stack' : lbal_queue s = p :: q -> pkr p it -> fst (poll it) = None -> lbal_is_root s = false ->
    maybe_pop (lbal_items s, lbal_cache s, lbal_stack s) = Ok (items, cache, stack) ->
    (fun F => to_next_parent F (items, cache, stack)) ⇓ Ok (items', cache', stack') ->
    (fun F => lbal_body gv into_iter poll F s) ⇓ Ok (inl (mkLbal (lbal_log s) false items' cache' stack' q)).
  Proof.
    intros Hq Hp Hn Hr Hm Ht; unfold lbal_body; rewrite Hq, Hm; cbn [bindR]; rewrite (pkr_next _ _ Hp), Hn, Hr.
    eapply conv_bind; [exact Ht|]; apply conv_eq; reflexivity.
  Qed.

  Lemma lba_loop F : forall s s1 s1', R0 s s1 -> loop (lbfsa_body gv into_iter poll) F s1 = Ok s1' ->
    (lba_items s1' = [] /\ exists s', Elbal s' /\ lbal_items s' = [] /\ lbal_log s' = lbal_log s /\ (fun F => lbal_advance gv into_iter poll F s) ⇓ Ok s') \/
    (lba_items s1' <> [] /\ exists nd s', lba_log s1' = nd :: lba_log s1 /\ R0 s' s1' /\
       if childless nd then (fun F => lbal_advance gv into_iter poll F s) ⇓ Ok s'
       else exists c, turns (lbal_body gv into_iter poll) (S c) s s').
  Proof.
    unfold lbal_advance; induction F as [|F IH]; intros s s1 s1' HR; [discriminate|]; cbn [loop]; unfold lbfsa_body at 1.
    destruct HR as ((Hl & Hi & Hc & Hs) & Hq & Hr1 & Hr).
    destruct (maybe_pop (lba_items s1, lba_cache s1, lba_stack s1)) as [[[items cache] stack]| | |] eqn:Em; try discriminate; cbn [bindR].
    rewrite <- Hi, <- Hc, <- Hs in Em.
    destruct (lba_queue s1) as [|it q1] eqn:Eq1; [discriminate|]; inversion Hq as [|p ? q ? Hp Hq' Eq]; subst; symmetry in Eq.
    destruct (poll it) as [[n|] it'] eqn:Ep.
    - rewrite (gv_eq gv n); intros [= <-]; right; split; [discriminate|].
      exists n, (mkLbal (n :: lbal_log s) false (value n :: items) cache stack (((None, it') :: q) ++ [(Some (fst (poll (kids n))), snd (poll (kids n)))])).
      split; [reflexivity|]; split.
      + split; [split; [cbn; congruence|repeat split]|]; split; [|split; [exact Hr1|discriminate]].
        cbn [lbal_queue lba_queue app]; constructor; [apply pkr_new|]; apply Forall2_app; [exact Hq'|constructor; [apply pkr_peeked|constructor]].
      + assert (Hb : forall f, lbal_body gv into_iter poll f s = let s' := mkLbal (n :: lbal_log s) false (value n :: items) cache stack (((None, it') :: q) ++ [(Some (fst (poll (kids n))), snd (poll (kids n)))]) in
            if negb (childless n) then Ok (inl s') else Ok (inr s')).
        { intros f; unfold lbal_body; rewrite Eq, Em; cbn [bindR]; rewrite (pkr_next _ _ Hp), Ep; cbn [fst snd]; rewrite (gv_eq gv n).
          destruct (pkr_peek n) as [-> ->]; reflexivity. }
        destruct (childless n); cbn [negb] in Hb.
        * apply loop_done, conv_eq; exact Hb.
        * exists 0; eexists; split; [apply conv_eq; exact Hb|reflexivity].
    - assert (Hroot : lbal_is_root s = false) by (destruct (lbal_is_root s); [destruct (Hr eq_refl); reflexivity|reflexivity]).
      destruct (to_next_parent F (items, cache, stack)) as [[[items' cache'] stack']| | |] eqn:Et; try discriminate; cbn [bindR].
      pose proof (more_conv _ _ _ (more_to_next_parent (items, cache, stack)) Et ltac:(discriminate)) as Ht.
      pose proof (lbal_step_none s it p q _ _ _ _ _ _ Eq Hp ltac:(rewrite Ep; reflexivity) Hroot Em Ht) as Hb.
      inversion Hq' as [|p2 it2 q' q1' Hp2 Hq2]; subst.
      + intros [= <-]; left; split; [reflexivity|]; eexists; split; [|split; [|split; [|eapply loop_step; [exact Hb|apply loop_done, conv_eq; reflexivity]]]]; reflexivity.
      + intros H; apply (IH (mkLbal (lbal_log s) false items' cache' stack' (p2 :: q'))) in H.
        * cbn [lba_log lbal_log] in H; destruct H as [(H1 & s' & H2 & H3 & H4 & H5)|(H1 & nd & s' & H2 & H3 & H4)]; [left|right]; (split; [exact H1|]).
          -- exists s'; repeat split; auto; eapply loop_step; [exact Hb|exact H5].
          -- exists nd, s'; split; [exact H2|split; [exact H3|]]; destruct (childless nd); [eapply loop_step; [exact Hb|exact H4]|].
             destruct H4 as (c & H4); exists (S c); eexists; split; [exact Hb|exact H4].
        * split; [split; [cbn; congruence|repeat split]|]; split; [constructor; assumption|split; [exact Hr1|discriminate]].
  Qed.

  Lemma lbfsa_loop_root F : forall s1 s1', loop (lbfsa_body gv into_iter poll) F s1 = Ok s1' -> lba_is_root s1' = lba_is_root s1.
  Proof.
    induction F as [|F IH]; intros s1 s1'; [discriminate|]; cbn [loop]; unfold lbfsa_body at 1.
    destruct (maybe_pop _) as [[[a b] c]| | |]; try discriminate; cbn [bindR]; destruct (lba_queue s1) as [|it q]; [discriminate|].
    destruct (poll it) as [[n|] it']; [rewrite (gv_eq gv n); intros [= <-]; reflexivity|].
    destruct (to_next_parent F (a, b, c)) as [[[a' b'] c']| | |]; try discriminate; cbn [bindR].
    destruct q; [intros [= <-]; reflexivity|]; intros H; apply IH in H; exact H.
  Qed.

  Section Anc.
    Variables (n : Nd) (Q : list (pos Nd)) (j : nat).
    Local Notation s0 := (lbfsa_new gv into_iter n).
    Local Notation next1 := (lbfsa_next gv into_iter poll).
    Local Notation next2 := (lbal_next gv into_iter poll).
    Hypothesis Htwice : none_twice gv into_iter poll n.
    Hypothesis Hrun : forall k, k <= j -> k <= S (length Q) -> exists s, calls next1 k s0 ⇓ Ok (map (nth_error (map (ancestors_at gv) Q)) (seq 0 k), s) /\ rev (lba_log s) = map pos_here (firstn (Nat.max 1 k) Q).
    Definition Sta (i : nat) (s : lbfsa Nd V It) : Prop := after next1 i s0 s /\ i <= j /\ i <= S (length Q).
    Local Notation leafp := (leafp gv into_iter poll).

    Lemma Sta_log i s : Sta i s -> calls next1 i s0 ⇓ Ok (map (nth_error (map (ancestors_at gv) Q)) (seq 0 i), s) /\ rev (lba_log s) = map pos_here (firstn (Nat.max 1 i) Q).
    Proof. intros [[os H] [Hi Hi']]; destruct (Hrun i Hi Hi') as (s' & H' & Hl); pose proof (conv_fun _ _ _ H H') as E; injection E as -> ->; auto. Qed.
    Lemma Sta_step i s1 : i < j -> i <= length Q -> Sta i s1 ->
      exists s1', (fun F => next1 F s1) ⇓ Ok (nth_error (map (ancestors_at gv) Q) i, s1') /\ (i < length Q -> Sta (S i) s1').
    Proof.
      intros Hi Hi' HS; destruct (Sta_log _ _ HS) as [H _]; destruct (Hrun (S i) Hi ltac:(lia)) as (s' & H' & _).
      destruct (calls_snoc_inv _ _ _ _ _ _ _ H H') as (o & Ho & E); rewrite seq_S, map_app in E; cbn [map Nat.add] in E; apply app_inj_tail in E as [_ <-].
      exists s'; split; [exact Ho|]; intros _; split; [eexists; exact H'|lia].
    Qed.

    (** Before the root, after it, and after a root that is a leaf *)
    Definition Ra (s : lbal Nd V It) (s1 : lbfsa Nd V It) : Prop :=
      R0 s s1 \/
      (s1 = s0 /\ s = lbfsa_leaves s0) \/
      (exists it', poll (kids n) = (None, it') /\ fst (poll it') = None /\
         s1 = mkLbfsa [n] false [value n] cn_default [] [kids n] /\ s = mkLbal [n] false [value n] cn_default [] [(None, it')]).

    Lemma next1_inv s1 x s1' : lba_is_root s1 = false -> (fun F => next1 F s1) ⇓ Ok (x, s1') -> exists F, loop (lbfsa_body gv into_iter poll) F s1 = Ok s1' /\ x = got_items (lba_items s1').
    Proof.
      intros Hr [F HF]; exists F; specialize (HF F (le_n F)); unfold lbfsa_next, lbfsa_advance in HF; rewrite Hr in HF.
      destruct (loop (lbfsa_body gv into_iter poll) F s1) as [t| | |]; try discriminate; cbn [bindR] in HF; injection HF as <- <-; split; [reflexivity|destruct (lba_items t); reflexivity].
    Qed.
    Lemma next1_root x s1' : (fun F => next1 F s0) ⇓ Ok (x, s1') -> x = Some [value n] /\ s1' = mkLbfsa [n] false [value n] cn_default [] [kids n].
    Proof.
      intros [F HF]; specialize (HF F (le_n F)); unfold lbfsa_next, lbfsa_advance, lbfsa_new in HF; rewrite (gv_eq gv n) in HF; cbn in HF; injection HF as <- <-; auto.
    Qed.
    Lemma next2_conv s s' : (fun F => lbal_advance gv into_iter poll F s) ⇓ Ok s' -> (fun F => next2 F s) ⇓ Ok (got_items (lbal_items s'), s').
    Proof. intros H; unfold lbal_next; eapply conv_bind; [exact H|apply conv_eq; reflexivity]. Qed.
    Lemma next2_then s s' : (forall r, (fun F => lbal_advance gv into_iter poll F s') ⇓ r -> (fun F => lbal_advance gv into_iter poll F s) ⇓ r) ->
      forall r, (fun F => next2 F s') ⇓ r -> (fun F => next2 F s) ⇓ r.
    Proof.
      intros H r [F0 HF]; unfold lbal_next in *.
      assert (Hadv : exists r', (fun F => lbal_advance gv into_iter poll F s') ⇓ r' /\ bindR r' (fun s' => Ok (match lbal_items s' with [] => None | items => Some (rev items) end, s')) = r).
      { destruct r as [[o t]| | |]; [exists (Ok t)|exists Panic|exists UB|exists OutOfFuel]; (split; [exists F0; intros F HF'; specialize (HF F HF')|specialize (HF F0 (le_n _))];
          destruct (lbal_advance gv into_iter poll _ s') as [t'| | |]; cbn [bindR] in *; try discriminate; try reflexivity); injection HF as E1 E2; subst; reflexivity. }
      destruct Hadv as (r' & Hr' & Er); apply H in Hr' as [F1 HF1]; exists F1; intros F HF'; rewrite (HF1 F HF'); exact Er.
    Qed.

    Lemma lbal_hstep i' t1 t2 t1' x : Sta i' t1 -> nth_error Q i' = Some x -> (fun F => next1 F t1) ⇓ Ok (Some (ancestors_at gv x), t1') -> Sta (S i') t1' -> Ra t2 t1 ->
      exists t2', Ra t2' t1' /\ if leafp x then (fun F => next2 F t2) ⇓ Ok (Some (ancestors_at gv x), t2') else exists c, turns (lbal_body gv into_iter poll) c t2 t2' /\ (0 < i' -> 0 < c).
    Proof.
      intros Hi1 Hx Hn Hi2 HR.
        assert (Hnd : forall nd, lba_log t1' = nd :: lba_log t1 -> 0 < i' -> nd = pos_here x).
        { intros nd El Hpos; apply Sta_log in Hi1 as [_ L1]; apply Sta_log in Hi2 as [_ L2]; rewrite El in L2; cbn [rev] in L2; rewrite L1 in L2.
          destruct i' as [|i']; [lia|]; cbn [Nat.max] in L2.
          assert (Es : firstn (S (S i')) Q = firstn (S i') Q ++ [x]).
          { clear -Hx; revert Hx; generalize (S i'); clear i'; intros i'; revert i'; induction Q as [|b l IH]; intros [|i]; cbn [nth_error]; try discriminate; [intros [= ->]; reflexivity|].
            intros H; cbn [firstn app]; f_equal; apply IH, H. }
          rewrite Es, map_app in L2; cbn [map] in L2; apply app_inj_tail in L2 as [_ ->]; reflexivity. }
        destruct HR as [HR|[[-> ->]|(it' & Ep & Ep' & -> & ->)]].
        + assert (Hpos : 0 < i').
          { destruct i'; [|lia]; destruct Hi1 as [[os Hc] _]; pose proof (conv_fun _ _ _ Hc (calls_0 _ _)) as E; injection E as _ ->.
            destruct HR as (_ & _ & Hf & _); unfold lbfsa_new in Hf; rewrite (gv_eq gv n) in Hf; discriminate. }
          pose proof HR as (_ & _ & Hroot & _); destruct (next1_inv _ _ _ Hroot Hn) as (F & HF & Hx').
          destruct (lba_loop F _ _ _ HR HF) as [(H1 & _)|(H1 & nd & t2' & H2 & H3 & H4)]; [rewrite H1 in Hx'; discriminate|].
          rewrite (Hnd nd H2 Hpos) in H4; exists t2'; split; [left; exact H3|]; unfold ProofsLazyLeaves.leafp.
          destruct (childless (pos_here x)); [|destruct H4 as (c & H4); exists (S c); split; [exact H4|lia]].
          apply next2_conv in H4; destruct H3 as ((_ & Hit & _) & _); rewrite Hit, <- Hx' in H4; exact H4.
        + destruct (next1_root _ _ Hn) as [Hx' ->].
          assert (Ei0 : i' = 0).
          { pose proof (Sta_log _ _ Hi2) as [_ L2]; cbn [lba_log rev app] in L2; destruct i' as [|i']; [reflexivity|exfalso]; pose proof (Sta_log _ _ Hi1) as [_ L1]; unfold lbfsa_new in L1; rewrite (gv_eq gv n) in L1; cbn [lba_log rev app Nat.max] in L1, L2.
              apply (f_equal (@length _)) in L2; rewrite map_length, firstn_length_le in L2; [discriminate|].
              assert (S i' < length Q) by (apply nth_error_Some; congruence); lia. }
          assert (Ei : pos_here x = n).
          { pose proof (Sta_log _ _ Hi2) as [_ L2]; cbn [lba_log rev app] in L2; subst i'; destruct Q as [|y l]; [discriminate|]; cbn in Hx, L2; injection Hx as ->; injection L2 as L2; symmetry; exact L2. }
          unfold ProofsLazyLeaves.leafp; rewrite Ei.
          assert (El : lbfsa_leaves s0 = mkLbal [n] true [value n] cn_default [] [(None, kids n)]) by (unfold lbfsa_new; rewrite (gv_eq gv n); reflexivity).
          destruct (childless n) eqn:Ec.
          * assert (Ep : exists it', poll (kids n) = (None, it')) by (unfold SpecLazyLeaves.childless in Ec; fold (nkids gv n) in Ec; destruct (poll (kids n)) as [[c|] it']; [discriminate|eauto]).
            destruct Ep as (it' & Ep); pose proof (Htwice Ec) as Ht; fold (nkids gv n) in Ht; rewrite Ep in Ht; cbn [snd] in Ht.
            exists (mkLbal [n] false [value n] cn_default [] [(None, it')]); split; [right; right; exists it'; auto|].
            rewrite Hx', El; apply (next2_conv _ (mkLbal [n] false [value n] cn_default [] [(None, it')])).
            apply loop_done, conv_eq; intros f; unfold lbal_body; cbn [lbal_queue lbal_items lbal_cache lbal_stack lbal_is_root lbal_log].
            change (maybe_pop ([value n], cn_default, [])) with (@Ok _ ([value n], @cn_default V, @nil (cnode V))); cbn [bindR pk_next]; rewrite Ep; reflexivity.
          * exists (lbfsa_leaves s0); split; [|exists 0; split; [reflexivity|rewrite Ei0; lia]]; left; rewrite El; split; [repeat split|]; cbn [lbal_queue lba_queue lba_is_root]; split; [constructor; [apply pkr_new|constructor]|]; split; [reflexivity|].
            intros _; unfold SpecLazyLeaves.childless in Ec; fold (nkids gv n) in Ec; destruct (poll (kids n)) as [[c|] it']; cbn; [discriminate|discriminate].
        + exfalso; destruct (next1_inv (mkLbfsa [n] false [value n] cn_default [] [kids n]) _ _ eq_refl Hn) as (F & HF & Hx').
          destruct F; [discriminate|]; cbn [loop] in HF; unfold lbfsa_body at 1 in HF; cbn [lba_items lba_cache lba_stack lba_queue lba_log lba_is_root] in HF.
          change (maybe_pop ([value n], cn_default, [])) with (@Ok _ ([value n], @cn_default V, @nil (cnode V))) in HF; cbn [bindR] in HF; rewrite Ep in HF.
          destruct (to_next_parent F ([value n], cn_default, [])) as [[[a b] c]| | |]; try discriminate; cbn [bindR] in HF; injection HF as <-; discriminate.
    Qed.

    Lemma lbal_sieve k i s1 : 0 < length Q -> Sta i s1 -> i <= length Q -> k <= length (filter leafp (skipn i (firstn j Q))) \/ length Q < j ->
      exists s, calls next2 k (lbfsa_leaves s1) ⇓ Ok (map (nth_error (map (ancestors_at gv) (filter leafp (skipn i Q)))) (seq 0 k), s) /\
        (k = 0 -> lbal_log s = lba_log s1) /\
        (forall p x, i <= p -> nth_error Q p = Some x -> leafp x = true -> length (filter leafp (skipn i (firstn (S p) Q))) = k -> rev (lbal_log s) = map pos_here (firstn (S p) Q)) /\
        (length (filter leafp (skipn i Q)) < k -> rev (lbal_log s) = map pos_here Q).
    Proof.
      intros HQ HS Hi Hk.
      destruct (sieve_calls next1 next2 Q (ancestors_at gv) pos_here leafp j Sta Ra Elbal (@lbal_log Nd V It) Sta_step) with (k := k) (i := i) (s1 := s1) (s2 := lbfsa_leaves s1) as (s & H & Hz & HL1 & HL2); auto.
      - intros i' t1 t2 t1' x Hi1 Hx Hn Hi2 HR; destruct (lbal_hstep _ _ _ _ _ Hi1 Hx Hn Hi2 HR) as (t2' & HR' & H2); exists t2'; split; [exact HR'|].
        destruct (leafp x); [exact H2|destruct H2 as (c & H2 & _); exact (next2_then _ _ (turns_then _ _ _ _ H2))].
      - intros t1 t2 t1' HSl Hn [HR|[[-> ->]|(it' & Ep & Ep' & -> & ->)]].
        + pose proof HR as (_ & _ & Hroot & _); destruct (next1_inv _ _ _ Hroot Hn) as (F & HF & Hx').
          destruct (lba_loop F _ _ _ HR HF) as [(H1 & t2' & H2 & H3 & H4 & H5)|(H1 & _)]; [|destruct (lba_items t1'); [congruence|discriminate]].
          exists t2'; repeat split; auto; apply next2_conv in H5; rewrite H3 in H5; exact H5.
        + destruct (next1_root _ _ Hn) as [Hx' _]; discriminate.
        + destruct (next1_inv (mkLbfsa [n] false [value n] cn_default [] [kids n]) _ _ eq_refl Hn) as (F & HF & Hx').
          destruct F; [discriminate|]; cbn [loop] in HF; unfold lbfsa_body at 1 in HF; cbn [lba_items lba_cache lba_stack lba_queue lba_log lba_is_root] in HF.
          change (maybe_pop ([value n], cn_default, [])) with (@Ok _ ([value n], @cn_default V, @nil (cnode V))) in HF; cbn [bindR] in HF; rewrite Ep in HF.
          destruct (to_next_parent F ([value n], cn_default, [])) as [[[a b] c]| | |] eqn:Et; try discriminate.
          pose proof (more_conv _ _ _ (more_to_next_parent ([value n], cn_default, [])) Et ltac:(discriminate)) as Ht.
          eexists; split; [|split; [|]].
          * apply (next2_conv _ (mkLbal [n] false [] b c [])).
            eapply loop_step; [exact (lbal_step_none (mkLbal [n] false [value n] cn_default [] [(None, it')]) it' (None, it') [] [value n] cn_default [] a b c eq_refl (pkr_new it') Ep' eq_refl eq_refl Ht)|apply loop_done, conv_eq; reflexivity].
          * reflexivity.
          * reflexivity.
      - intros t2 He; exists (mkLbal (lbal_log t2) (lbal_is_root t2) [] (lbal_cache t2) (lbal_stack t2) []); split; [|split; reflexivity].
        apply (next2_conv _ (mkLbal (lbal_log t2) (lbal_is_root t2) [] (lbal_cache t2) (lbal_stack t2) [])), loop_done, conv_eq; intros f; unfold lbal_body; rewrite He; reflexivity.
      - intros i' t1 t2 HSi HR Hle; pose proof (proj2 (Sta_log _ _ HSi)) as L; cbn [Nat.max] in L.
        destruct HR as [((Hl & _) & _)|[[-> ->]|(it' & _ & _ & -> & ->)]]; [rewrite Hl; exact L| |]; exact L.
      - destruct HS as [[os Hc] [Hj Hj']]; destruct i as [|i'].
        + right; left; pose proof (conv_fun _ _ _ Hc (calls_0 _ _)) as E; injection E as _ ->; auto.
        + left; split; [repeat split|]; cbn [lbfsa_leaves lbal_queue lbal_is_root].
          assert (Hroot : lba_is_root s1 = false).
          { destruct Hc as [F HF]; specialize (HF F (le_n F)); rewrite <- Nat.add_1_r, calls_plus in HF.
            destruct (calls next1 i' s0 F) as [[os1 u]| | |]; try discriminate; cbn [bindR calls] in HF.
            destruct (next1 F u) as [[o v]| | |] eqn:En; try discriminate; cbn [bindR] in HF; injection HF as _ <-.
            unfold lbfsa_next, lbfsa_advance in En; destruct (lba_is_root u) eqn:Eu; [cbn [bindR] in En; injection En as _ <-; reflexivity|].
            destruct (loop (lbfsa_body gv into_iter poll) F u) as [v'| | |] eqn:El; try discriminate; cbn [bindR] in En; injection En as _ <-.
            rewrite (lbfsa_loop_root _ _ _ El); exact Eu. }
          rewrite Hroot; split; [|split; [reflexivity|discriminate]].
          induction (lba_queue s1); constructor; [apply pkr_new|assumption].
      - exists s; auto.
    Qed.
  End Anc.
End Breadth.
