(** * Lemmas about convergence, loops, calls and yields. *)
From Verif Require Export Prelim.

Lemma conv_ret {A} (r : Res A) : (fun _ => r) ⇓ r.
Proof. exists 0; auto. Qed.

Lemma conv_eq {A} (m : nat -> Res A) r : (forall f, m f = r) -> m ⇓ r.
Proof. intros H; exists 0; auto. Qed.

Lemma conv_ext {A} (m m' : nat -> Res A) r : (forall f, m f = m' f) -> m' ⇓ r -> m ⇓ r.
Proof. intros H [F HF]; exists F; intros f Hf; rewrite H; auto. Qed.

Lemma conv_bind {A B} (m : nat -> Res A) a (k : nat -> A -> Res B) r :
  m ⇓ Ok a -> (fun f => k f a) ⇓ r -> (fun f => bindR (m f) (k f)) ⇓ r.
Proof.
  intros [F HF] [G HG]; exists (F + G); intros f Hf.
  rewrite HF by lia; cbn; apply HG; lia.
Qed.

Lemma conv_fun {A} (m : nat -> Res A) r r' : m ⇓ r -> m ⇓ r' -> r = r'.
Proof.
  intros [F HF] [G HG].
  rewrite <- (HF (F + G)) by lia; apply HG; lia.
Qed.

(** Loops *)
Section Loop.
  Context {S R : Type} (body : nat -> S -> Res (S + R)).

  Lemma loop_step s s' r :
    (fun f => body f s) ⇓ Ok (inl s') -> (fun f => loop body f s') ⇓ r ->
    (fun f => loop body f s) ⇓ r.
  Proof.
    intros [F HF] [G HG]; exists (Datatypes.S (F + G)); intros [|f] Hf; [lia|].
    cbn; rewrite HF by lia; apply HG; lia.
  Qed.

  Lemma loop_done s r :
    (fun f => body f s) ⇓ Ok (inr r) -> (fun f => loop body f s) ⇓ Ok r.
  Proof.
    intros [F HF]; exists (Datatypes.S F); intros [|f] Hf; [lia|].
    cbn; rewrite HF by lia; reflexivity.
  Qed.

  Lemma loop_panic s :
    (fun f => body f s) ⇓ Panic -> (fun f => loop body f s) ⇓ Panic.
  Proof.
    intros [F HF]; exists (Datatypes.S F); intros [|f] Hf; [lia|].
    cbn; rewrite HF by lia; reflexivity.
  Qed.
End Loop.

(** Calls *)
Section CallsFacts.
  Context {S O : Type} (next : nat -> S -> Res (O * S)).

  Lemma calls_0 s : calls next 0 s ⇓ Ok ([], s).
  Proof. exists 0; reflexivity. Qed.

  Lemma calls_S k s o s1 os s2 :
    (fun f => next f s) ⇓ Ok (o, s1) -> calls next k s1 ⇓ Ok (os, s2) ->
    calls next (Datatypes.S k) s ⇓ Ok (o :: os, s2).
  Proof.
    intros [F HF] [G HG]; exists (F + G); intros f Hf.
    cbn; rewrite HF by lia; cbn; rewrite HG by lia; reflexivity.
  Qed.

  Lemma calls_app j k s os1 s1 os2 s2 :
    calls next j s ⇓ Ok (os1, s1) -> calls next k s1 ⇓ Ok (os2, s2) ->
    calls next (j + k) s ⇓ Ok (os1 ++ os2, s2).
  Proof.
    revert s os1; induction j as [|j IH]; intros s os1 H1 H2.
    - pose proof (conv_fun _ _ _ H1 (calls_0 s)) as E; injection E as -> ->; exact H2.
    - destruct H1 as [F HF], H2 as [G HG].
      exists (F + G); intros f Hf.
      specialize (HF f ltac:(lia)); specialize (HG f ltac:(lia)).
      cbn [calls Nat.add] in *.
      destruct (next f s) as [[o s0]| | |]; cbn in *; try discriminate.
      clear IH.
      assert (forall j s0 os1 s1, calls next j s0 f = Ok (os1, s1) -> calls next k s1 f = Ok (os2, s2) ->
              calls next (j + k) s0 f = Ok (os1 ++ os2, s2)) as HH.
      { clear; induction j as [|j IH]; intros s0 os1 s1 H1 H2; cbn in *.
        - injection H1 as <- <-; exact H2.
        - destruct (next f s0) as [[o s']| | |]; cbn in *; try discriminate.
          destruct (calls next j s' f) as [[os s'']| | |] eqn:E; cbn in *; try discriminate.
          injection H1 as <- <-.
          rewrite (IH _ _ _ E H2); reflexivity. }
      destruct (calls next j s0 f) as [[os s']| | |] eqn:E; cbn in *; try discriminate.
      injection HF as <- <-.
      rewrite (HH _ _ _ _ E HG); reflexivity.
  Qed.

  Lemma after_0 s : after next 0 s s.
  Proof. exists []; apply calls_0. Qed.

  Lemma after_fun k s s1 s2 : after next k s s1 -> after next k s s2 -> s1 = s2.
  Proof.
    intros [os1 H1] [os2 H2]; pose proof (conv_fun _ _ _ H1 H2) as E; congruence.
  Qed.

  Lemma calls_S_inv k s os s2 :
    calls next (Datatypes.S k) s ⇓ Ok (os, s2) ->
    (exists o s1, (fun f => next f s) ⇓ Ok (o, s1)) ->
    exists o s1 os', (fun f => next f s) ⇓ Ok (o, s1) /\ calls next k s1 ⇓ Ok (os', s2) /\ os = o :: os'.
  Proof.
    intros [F HF] (o & s1 & HN).
    destruct HN as [G HG].
    assert (E : exists os', calls next k s1 ⇓ Ok (os', s2) /\ os = o :: os').
    { pose proof (HF (F + G) ltac:(lia)) as H0.
      cbn in H0; rewrite HG in H0 by lia; cbn in H0.
      destruct (calls next k s1 (F + G)) as [[os' s']| | |] eqn:E0; cbn in H0; try discriminate.
      exists os'; split; [|congruence].
      exists (F + G); intros f Hf.
      pose proof (HF f ltac:(lia)) as H1.
      cbn in H1; rewrite HG in H1 by lia; cbn in H1.
      destruct (calls next k s1 f) as [[os'' s'']| | |]; cbn in H1; try discriminate; congruence. }
    destruct E as (os' & H1 & H2).
    exists o, s1, os'; repeat split; auto.
    exists G; auto.
  Qed.
End CallsFacts.

(** The invariant method for [yields]. *)
Section Yields.
  Context {S A : Type} (next : nat -> S -> Res (option A * S)).

  Definition step_inv (R : S -> list A -> Prop) : Prop :=
    forall s l, R s l ->
      exists s', (fun f => next f s) ⇓ Ok (hd_error l, s') /\ R s' (tl l).

  Lemma nth_error_tl (l : list A) i : nth_error (tl l) i = nth_error l (Datatypes.S i).
  Proof. destruct l; [destruct i; reflexivity|reflexivity]. Qed.

  Lemma step_inv_calls R : step_inv R -> forall k s l, R s l ->
    exists s', calls next k s ⇓ Ok (map (nth_error l) (seq 0 k), s') /\ R s' (skipn k l).
  Proof.
    intros HR; induction k as [|k IH]; intros s l H.
    - exists s; split; [apply calls_0|exact H].
    - destruct (HR s l H) as (s1 & Hn & H1).
      destruct (IH s1 (tl l) H1) as (s2 & Hc & H2).
      exists s2; split.
      + cbn [seq map].
        replace (map (nth_error l) (seq 1 k)) with (map (nth_error (tl l)) (seq 0 k)).
        * replace (nth_error l 0) with (hd_error l) by (destruct l; reflexivity).
          eapply calls_S; eauto.
        * rewrite <- seq_shift, map_map; apply map_ext; intros i; apply nth_error_tl.
      + destruct l; [rewrite skipn_nil in H2; exact H2|exact H2].
  Qed.

  Lemma step_inv_yields R : step_inv R -> forall s l, R s l -> yields next s l.
  Proof.
    intros HR s l H k; destruct (step_inv_calls R HR k s l H) as (s' & Hc & _).
    exists s'; exact Hc.
  Qed.

  Lemma step_inv_after R : step_inv R -> forall k s l s', R s l -> after next k s s' -> R s' (skipn k l).
  Proof.
    intros HR k s l s' H [os Ha].
    destruct (step_inv_calls R HR k s l H) as (s'' & Hc & H'').
    pose proof (conv_fun _ _ _ Ha Hc) as E; injection E as -> ->; exact H''.
  Qed.

  (** [yields] is itself a step invariant, so it can be used compositionally. *)
  Lemma yields_step_inv : step_inv (fun s l => yields next s l).
  Proof.
    intros s l H.
    destruct (H 1) as [s' [F HF]].
    assert (Hn : (fun f => next f s) ⇓ Ok (hd_error l, s')).
    { exists F; intros f Hf; specialize (HF f Hf); cbn in HF.
      destruct (next f s) as [[o s1]| | |]; cbn in HF; try discriminate.
      injection HF as -> ->; destruct l; reflexivity. }
    exists s'; split; [exact Hn|].
    intros k.
    destruct (H (Datatypes.S k)) as [s2 H2].
    destruct (calls_S_inv _ _ _ _ _ H2) as (o & s1 & os' & Hn' & Hc & E); [eauto|].
    pose proof (conv_fun _ _ _ Hn Hn') as E'; injection E' as <- <-.
    exists s2.
    cbn [seq map] in E.
    replace (map (nth_error (tl l)) (seq 0 k)) with os'; [exact Hc|].
    apply (f_equal (@tl _)) in E; cbn in E; subst os'.
    rewrite <- seq_shift, map_map; apply map_ext; intros i; symmetry; apply nth_error_tl.
  Qed.

  Lemma yields_after k s l s' : yields next s l -> after next k s s' -> yields next s' (skipn k l).
  Proof. intros; eapply (step_inv_after _ yields_step_inv); eauto. Qed.

  Lemma yields_after_ex k s l : yields next s l -> exists s', after next k s s'.
  Proof. intros H; destruct (H k) as [s' Hs]; exists s', (map (nth_error l) (seq 0 k)); exact Hs. Qed.
End Yields.

Lemma nth_error_ext {A} (l l' : list A) : (forall i, nth_error l i = nth_error l' i) -> l = l'.
Proof.
  revert l'; induction l as [|x l IH]; intros [|y l'] E; auto.
  - specialize (E 0); discriminate.
  - specialize (E 0); discriminate.
  - pose proof (E 0) as E0; injection E0 as ->; f_equal; apply IH; intros i; exact (E (S i)).
Qed.

Lemma yields_unique S A (next : nat -> S -> Res (option A * S)) s l l' :
  yields next s l -> yields next s l' -> l = l'.
Proof.
  intros H H'; apply nth_error_ext; intros i.
  destruct (H (Datatypes.S i)) as [s1 H1], (H' (Datatypes.S i)) as [s2 H2].
  pose proof (conv_fun _ _ _ H1 H2) as E; apply (f_equal (fun r => match r with Ok (l, _) => l | _ => [] end)) in E.
  assert (Hi : In i (seq 0 (Datatypes.S i))) by (apply in_seq; lia).
  revert E Hi; generalize (seq 0 (Datatypes.S i)) as q.
  induction q as [|x q IH]; intros Eq Hin; [destruct Hin|].
  injection Eq as E1 E2; destruct Hin as [->|Hin]; auto.
Qed.

(** usize facts *)
Lemma wrapping_succ_max : wrapping_succ usize_max = 0%N.
Proof. reflexivity. Qed.

Lemma wrapping_succ_lt n : (n < usize_max)%N -> wrapping_succ n = (n + 1)%N.
Proof.
  intros H; unfold wrapping_succ; apply N.mod_small.
  unfold usize_mod, usize_max in *; lia.
Qed.

Lemma checked_succ_lt n : (n < usize_max)%N -> checked_succ n = Ok (n + 1)%N.
Proof.
  intros H; unfold checked_succ.
  destruct (N.eqb_spec n usize_max); [lia|reflexivity].
Qed.
