(** * The [leaves()] iterators over trees that are made as they are traversed: depth first. *)
From Coq Require Import Permutation.
From Verif Require Import Prelim PrelimFacts Spec SpecFacts SpecObs SpecLazy SpecLazyLeaves ModelNode NodeFacts ModelPre ModelPost ModelBfs ModelLazy ModelLazyLeaves FuelMono.
From Verif Require Import ProofsPlain ProofsLazy ProofsLazyCtx ProofsLazyInst ProofsLazyRun ProofsLazyBin ProofsLazyDeep.

Section Depth.
  Context {Nd V C It : Type}.
  Variable gv : Nd -> V * C.
  Variable into_iter : C -> It.
  Variable poll : It -> option Nd * It.
  Local Notation value := (nval gv).
  Local Notation kids n := (into_iter (nkids gv n)).
  Local Notation childless := (childless gv into_iter poll).

  (** *** The walk without the values *)
  Definition ab_state : Type := option Nd * list Nd * list It * list Nd.
  Definition ab_body (_ : nat) (s : bool * list Nd * list It * list Nd) : Res (bool * list Nd * list It * list Nd + option (list Nd) * ab_state) :=
    let '(ja, log, q, ns) := s in
    match q with
    | [] => Ok (inr (None, (None, log, q, ns)))
    | it :: rest =>
        match poll it with
        | (Some n, it') => Ok (inl (true, n :: log, kids n :: it' :: rest, n :: ns))
        | (None, _) => if ja then Ok (inr (Some ns, (None, log, rest, tl ns))) else Ok (inl (false, log, rest, tl ns))
        end
    end.
  Definition ab_next (F : nat) (s : ab_state) : Res (option (list Nd) * ab_state) :=
    let '(r, log, q, ns) := s in
    match r with
    | Some n => loop ab_body F (true, n :: log, kids n :: q, n :: ns)
    | None => loop ab_body F (false, log, q, ns)
    end.

  (** *** What is to come *)
  Fixpoint pchains (c : list Nd) (t : tree Nd) : list (list Nd) :=
    match t with TNode n ts => flat_map (pchains (n :: c)) ts ++ [n :: c] end.
  Fixpoint rem (q1 : list (list (tree Nd))) (ns : list Nd) : list (list Nd) :=
    match q1, ns with
    | l :: q1', n :: ns' => flat_map (pchains ns) l ++ ns :: rem q1' ns'
    | _, _ => []
    end.
  Definition leafc (c : list Nd) : bool := match c with n :: _ => childless n | [] => false end.
  Definition heads (l : list (list Nd)) : list Nd := flat_map (fun c => opt_list (hd_error c)) l.

  Lemma first_leaf (l : list (list Nd)) :
    (exists A c B, l = A ++ c :: B /\ Forall (fun c => leafc c = false) A /\ leafc c = true) \/ Forall (fun c => leafc c = false) l.
  Proof.
    induction l as [|c l IH]; [right; constructor|]; destruct (leafc c) eqn:E; [left; exists [], c, l; auto|].
    destruct IH as [(A & c' & B & -> & HA & Hc)|H]; [left; exists (c :: A), c', B; auto|right; auto].
  Qed.
  Lemma filter_none (A : list (list Nd)) : Forall (fun c => leafc c = false) A -> filter leafc A = [].
  Proof. induction 1 as [|c A Hc H IH]; [reflexivity|]; cbn [filter]; rewrite Hc; exact IH. Qed.

  Section W.
    Variable W : nat -> list It -> list (list (tree Nd)) -> Prop.
    Hypothesis W_shape : forall m q2 q1, W m q2 q1 -> length q2 = length q1.
    Hypothesis W_nil : forall m, W m [] [].
    Hypothesis W_poll : forall m it q2 l q1, W (S m) (it :: q2) (l :: q1) ->
      match l with
      | [] => exists it', poll it = (None, it') /\ W m q2 q1
      | t :: l' => exists it', poll it = (Some (root t), it') /\ W (S m) (kids (root t) :: it' :: q2) (subs t :: l' :: q1)
      end.

    Definition fresh (ja : bool) (q2 : list It) (ns : list Nd) : Prop :=
      if ja then match ns, q2 with n :: ns', it :: _ => it = kids n /\ Forall (fun n => childless n = false) ns' | _, _ => False end
      else Forall (fun n => childless n = false) ns.

    Lemma rem_len : forall q1 ns, length q1 = length ns -> length q1 <= length (rem q1 ns).
    Proof.
      induction q1 as [|l q1 IH]; intros [|n ns]; try discriminate; cbn [length rem]; [lia|].
      intros [= H]; apply IH in H; rewrite app_length; cbn [length]; lia.
    Qed.
    Lemma rem_push t l q1 n ns : rem (subs t :: l :: q1) (root t :: n :: ns) = rem ((t :: l) :: q1) (n :: ns).
    Proof. destruct t as [r ts]; cbn [rem subs root flat_map pchains]; rewrite <- !app_assoc; reflexivity. Qed.

    Definition reaches (m : nat) (A B : list (list Nd)) : Prop :=
      match B with c :: _ => leafc c = true /\ length A < m | [] => length A <= m end.

    Lemma ab_loop : forall M q1 q2 ns m ja log A B, 2 * length (rem q1 ns) - length q1 <= M -> W m q2 q1 -> length q1 = length ns -> fresh ja q2 ns ->
      rem q1 ns = A ++ B -> Forall (fun c => leafc c = false) A -> reaches m A B ->
      match B with
      | c :: B' => exists q2' q1' log',
          (fun F => loop ab_body F (ja, log, q2, ns)) ⇓ Ok (Some c, (None, log', q2', tl c)) /\
          W (m - S (length A)) q2' q1' /\ rem q1' (tl c) = B' /\ length q1' = length (tl c) /\ Forall (fun n => childless n = false) (tl c) /\
          Permutation (log' ++ ns) (log ++ heads (A ++ [c]) ++ tl c)
      | [] => exists log',
          (fun F => loop ab_body F (ja, log, q2, ns)) ⇓ Ok (None, (None, log', [], [])) /\ Permutation (log' ++ ns) (log ++ heads A)
      end.
    Proof.
      induction M as [|M IH]; intros q1 q2 ns m ja log A B HM HW Hl Hf HR HA Hreach; pose proof (rem_len _ _ Hl) as Hr; (destruct q1 as [|l q1];
       [destruct ns; [|discriminate]; destruct A, B; try discriminate;
        pose proof (W_shape _ _ _ HW) as Hs; destruct q2; [|discriminate]; exists log; split; [apply loop_done, conv_eq; reflexivity|reflexivity]|]).
      - destruct ns; [discriminate|]; cbn [length] in HM, Hr; lia.
      - destruct ns as [|n ns]; [discriminate|]; pose proof (W_shape _ _ _ HW) as Hs; destruct q2 as [|it q2]; [discriminate|].
        destruct m as [|m'].
        { exfalso; unfold reaches in Hreach; destruct B; [|lia]; apply (f_equal (@length _)) in HR; cbn [rem] in HR; rewrite !app_length in HR; cbn in HR; lia. }
        pose proof (W_poll _ _ _ _ _ HW) as Hp; destruct l as [|t l].
        + (* the end of an iterator *)
          cbn [rem flat_map app] in HR, HM, Hr; cbn [length] in HM, Hl, Hr; injection Hl as Hl.
          destruct Hp as (it' & Hp & HW').
          destruct ja.
          * destruct Hf as [-> Hns].
            assert (Hch : leafc (n :: ns) = true) by (unfold leafc, SpecLazyLeaves.childless; fold (nkids gv n); rewrite Hp; reflexivity).
            destruct A as [|c' A]; [|exfalso; injection HR as <- _; inversion HA; congruence].
            destruct B as [|c B]; [discriminate|].
            injection HR as <- <-; exists q2, q1, log; split; [apply loop_done, conv_eq; intros; unfold ab_body; rewrite Hp; reflexivity|].
            cbn [length Nat.sub tl]; rewrite Nat.sub_0_r; repeat split; auto.
          * inversion Hf as [|? ? Hn Hns]; subst.
            destruct A as [|c' A].
            { destruct B as [|c B]; [discriminate|]; injection HR as <- HR; destruct Hreach as [Hc _]; cbn [leafc] in Hc; congruence. }
            injection HR as <- HR; inversion HA as [|? ? _ HA']; subst.
            assert (Hreach' : reaches m' A B) by (unfold reaches in *; cbn [length] in Hreach; destruct B; [lia|split; [apply Hreach|destruct Hreach; lia]]).
            specialize (IH q1 q2 ns m' false log A B ltac:(lia) HW' Hl Hns HR HA' Hreach'); destruct B as [|c B].
            -- destruct IH as (log' & Hlp & HP); exists log'; split.
               ++ eapply loop_step; [apply conv_eq; intros; unfold ab_body; rewrite Hp; reflexivity|exact Hlp].
               ++ cbn [heads flat_map hd_error opt_list]; rewrite <- Permutation_middle, HP; cbn [app]; apply Permutation_middle.
            -- destruct IH as (q2' & q1' & log' & Hlp & HW2 & HR2 & Hl2 & Hf2 & HP); exists q2', q1', log'; split; [|split; [exact HW2|repeat split; auto]].
               ++ eapply loop_step; [apply conv_eq; intros; unfold ab_body; rewrite Hp; reflexivity|exact Hlp].
               ++ cbn [heads flat_map hd_error opt_list app]; rewrite <- Permutation_middle, HP; cbn [app]; apply Permutation_middle.
        + destruct Hp as (it' & Hp & HW').
          assert (Hn : Forall (fun n => childless n = false) (n :: ns)).
          { destruct ja; [|exact Hf]; destruct Hf as [-> Hns]; constructor; [|exact Hns].
            unfold SpecLazyLeaves.childless; fold (nkids gv n); rewrite Hp; reflexivity. }
          rewrite <- rem_push in HR, HM, Hr.
          specialize (IH (subs t :: l :: q1) (kids (root t) :: it' :: q2) (root t :: n :: ns) (S m') true (root t :: log) A B
            ltac:(cbn [length] in *; lia) HW' ltac:(cbn [length] in *; lia) (conj eq_refl Hn) HR HA Hreach).
          destruct B as [|c B].
          * destruct IH as (log' & Hlp & HP); exists log'; split.
            ++ eapply loop_step; [apply conv_eq; intros; unfold ab_body; rewrite Hp; reflexivity|exact Hlp].
            ++ rewrite <- Permutation_middle in HP; cbn [app] in HP; exact (Permutation_cons_inv HP).
          * destruct IH as (q2' & q1' & log' & Hlp & HW2 & HR2 & Hl2 & Hf2 & HP); exists q2', q1', log'; split; [|split; [exact HW2|repeat split; auto]].
            ++ eapply loop_step; [apply conv_eq; intros; unfold ab_body; rewrite Hp; reflexivity|exact Hlp].
            ++ rewrite <- Permutation_middle in HP; cbn [app] in HP; exact (Permutation_cons_inv HP).
    Qed.

    (** *** Calls *)
    Definition at_ (m : nat) (s : ab_state) (R : list (list Nd)) : Prop :=
      let '(r, log, q2, ns) := s in
      match r with
      | None => exists q1, W m q2 q1 /\ length q1 = length ns /\ Forall (fun n => childless n = false) ns /\ R = rem q1 ns
      | Some n => exists t, root t = n /\ q2 = [] /\ ns = [] /\ W m [kids n] [subs t] /\ R = pchains [] t
      end.
    Definition ab_log (s : ab_state) : list Nd := let '(_, log, _, _) := s in log.
    Definition ab_ns (s : ab_state) : list Nd := let '(_, _, _, ns) := s in ns.

    Lemma ab_call m s A B : at_ m s (A ++ B) -> Forall (fun c => leafc c = false) A -> reaches m A B ->
      match B with
      | c :: B' => exists s', (fun F => ab_next F s) ⇓ Ok (Some c, s') /\ at_ (m - S (length A)) s' B' /\ ab_ns s' = tl c /\
          Permutation (ab_log s' ++ ab_ns s) (ab_log s ++ heads (A ++ [c]) ++ tl c)
      | [] => exists s', (fun F => ab_next F s) ⇓ Ok (None, s') /\ (forall m, at_ m s' []) /\ ab_ns s' = [] /\
          Permutation (ab_log s' ++ ab_ns s) (ab_log s ++ heads A)
      end.
    Proof.
      destruct s as [[[r log] q2] ns]; cbn [at_ ab_log ab_ns]; intros Hat HA Hreach; unfold ab_next; destruct r as [n|].
      - destruct Hat as (t & Hn & -> & -> & HW & HR).
        assert (HR' : rem [subs t] [n] = A ++ B) by (subst n; rewrite HR; destruct t as [r ts]; reflexivity).
        pose proof (ab_loop _ [subs t] [kids n] [n] m true (n :: log) A B (le_n _) HW eq_refl (conj eq_refl (Forall_nil _)) HR' HA Hreach) as H; destruct B as [|c B].
        + destruct H as (log' & Hlp & HP); eexists; split; [exact Hlp|]; split; [|split; [reflexivity|]].
          * intros m'; exists []; repeat split; auto; apply W_nil.
          * cbn [ab_log]; apply Permutation_cons_inv with n; rewrite Permutation_middle; exact HP.
        + destruct H as (q2' & q1' & log' & Hlp & HW2 & HR2 & Hl2 & Hf2 & HP); eexists; split; [exact Hlp|]; split; [|split; [reflexivity|]].
          * exists q1'; auto.
          * cbn [ab_log]; apply Permutation_cons_inv with n; rewrite Permutation_middle; exact HP.
      - destruct Hat as (q1 & HW & Hl & Hf & HR); symmetry in HR.
        pose proof (ab_loop _ q1 q2 ns m false log A B (le_n _) HW Hl Hf HR HA Hreach) as H; destruct B as [|c B].
        + destruct H as (log' & Hlp & HP); eexists; split; [exact Hlp|]; split; [|split; [reflexivity|exact HP]].
          intros m'; exists []; repeat split; auto; apply W_nil.
        + destruct H as (q2' & q1' & log' & Hlp & HW2 & HR2 & Hl2 & Hf2 & HP); eexists; split; [exact Hlp|]; split; [|split; [reflexivity|exact HP]].
          exists q1'; auto.
    Qed.

    Lemma split_leaf A c B A0 c0 B0 : A ++ c :: B = A0 ++ c0 :: B0 -> Forall (fun c => leafc c = false) A -> leafc c0 = true ->
      (A0 = A /\ c0 = c /\ B0 = B) \/ exists A1, A0 = A ++ c :: A1 /\ B = A1 ++ c0 :: B0.
    Proof.
      revert A0; induction A as [|a A IH]; intros [|a0 A0] E HA Hc; cbn [app] in E; injection E as E1 E; subst.
      - auto.
      - right; exists A0; auto.
      - inversion HA; congruence.
      - inversion HA as [|? ? _ HA']; subst; destruct (IH A0 E HA' Hc) as [(-> & -> & ->)|(A1 & -> & ->)]; [auto|right; exists A1; auto].
    Qed.

    Lemma outs_S {X} (x : X) l k : map (nth_error (x :: l)) (seq 0 (S k)) = Some x :: map (nth_error l) (seq 0 k).
    Proof. cbn [seq map nth_error]; f_equal; rewrite <- seq_shift, map_map; reflexivity. Qed.
    Lemma outs_nil {X} k : map (nth_error (@nil X)) (seq 0 (S k)) = None :: map (nth_error []) (seq 0 k).
    Proof. cbn [seq map nth_error]; f_equal; rewrite <- seq_shift, map_map; apply map_ext; intros [|i]; reflexivity. Qed.

    Lemma ab_calls : forall k m s R, at_ m s R -> k <= length (filter leafc (firstn m R)) \/ length R <= m ->
      exists s', calls ab_next k s ⇓ Ok (map (nth_error (filter leafc R)) (seq 0 k), s') /\
        (k = 0 -> ab_log s' = ab_log s) /\
        (forall A c B, R = A ++ c :: B -> leafc c = true -> length (filter leafc (A ++ [c])) = k ->
           Permutation (ab_log s' ++ ab_ns s) (ab_log s ++ heads (A ++ [c]) ++ tl c)) /\
        (length (filter leafc R) < k -> Permutation (ab_log s' ++ ab_ns s) (ab_log s ++ heads R)).
    Proof.
      induction k as [|k IH]; intros m s R Hat Hk.
      - exists s; split; [apply calls_0|]; split; [reflexivity|]; split; [|lia].
        intros A c B -> Hc; rewrite filter_app, app_length; cbn [filter]; rewrite Hc; cbn [length]; lia.
      - destruct (first_leaf R) as [(A & c & B & -> & HA & Hc)|HA].
        + assert (Hm : length A < m).
          { destruct Hk as [Hk|Hk]; [|rewrite app_length in Hk; cbn in Hk; lia]; destruct (Nat.lt_ge_cases (length A) m) as [|Hge]; [assumption|exfalso].
            rewrite firstn_app, (proj2 (Nat.sub_0_le m (length A)) Hge), app_nil_r in Hk; cbn [firstn] in Hk.
            rewrite <- (firstn_skipn m A) in HA; apply Forall_app in HA as [HA _]; rewrite (filter_none _ HA) in Hk; cbn in Hk; lia. }
          destruct (ab_call m s A (c :: B) Hat HA (conj Hc Hm)) as (s1 & H1 & Hat1 & Hns1 & HP1).
          destruct (IH (m - S (length A)) s1 B Hat1) as (s2 & H2 & Hz & HP2 & HP3).
          { destruct Hk as [Hk|Hk]; [left|right; rewrite app_length in Hk; cbn in Hk; lia].
            rewrite firstn_app, firstn_all2, filter_app, (filter_none _ HA) in Hk by lia.
            destruct (m - length A) as [|m'] eqn:E; [lia|]; replace (m - S (length A)) with m' by lia.
            cbn [firstn app filter] in Hk; rewrite Hc in Hk; cbn [length] in Hk; lia. }
          exists s2; split; [|split; [discriminate|split]].
          * rewrite filter_app, (filter_none _ HA); cbn [filter app]; rewrite Hc, outs_S; exact (calls_S _ _ _ _ _ _ _ H1 H2).
          * intros A0 c0 B0 E Hc0 Hlen; destruct (split_leaf _ _ _ _ _ _ E HA Hc0) as [(-> & -> & ->)|(A1 & -> & ->)].
            -- rewrite filter_app, (filter_none _ HA) in Hlen; cbn [filter app] in Hlen; rewrite Hc in Hlen; injection Hlen as <-.
               rewrite (Hz eq_refl); exact HP1.
            -- specialize (HP2 A1 c0 B0 eq_refl Hc0).
               rewrite <- app_assoc, filter_app, (filter_none _ HA) in Hlen; cbn [filter app] in Hlen; rewrite Hc in Hlen; cbn [length] in Hlen.
               injection Hlen as Hlen; specialize (HP2 Hlen); rewrite Hns1 in HP2.
               apply (Permutation_app_inv_r (tl c)).
               rewrite <- app_assoc, (Permutation_app_comm (ab_ns s)), app_assoc, HP2, <- app_assoc.
               rewrite (Permutation_app_comm (heads (A1 ++ [c0]) ++ tl c0) (ab_ns s)), app_assoc, HP1.
               unfold heads; rewrite !flat_map_app; cbn [flat_map app]; rewrite ?flat_map_app; cbn [flat_map app]; rewrite !app_nil_r, <- ?app_assoc.
               apply Permutation_app_head, Permutation_app_head, Permutation_app_head.
               rewrite Permutation_app_comm, <- !app_assoc; reflexivity.
          * intros Hlt; rewrite filter_app, (filter_none _ HA) in Hlt; cbn [filter app] in Hlt; rewrite Hc in Hlt; cbn [length] in Hlt.
            specialize (HP3 ltac:(lia)); rewrite Hns1 in HP3.
            apply (Permutation_app_inv_r (tl c)).
            rewrite <- app_assoc, (Permutation_app_comm (ab_ns s)), app_assoc, HP3, <- app_assoc.
            rewrite (Permutation_app_comm (heads B) (ab_ns s)), app_assoc, HP1.
            unfold heads; rewrite !flat_map_app; cbn [flat_map app]; rewrite !app_nil_r, <- !app_assoc.
            apply Permutation_app_head, Permutation_app_head, Permutation_app_head, Permutation_app_comm.
        + assert (Hm : length R <= m).
          { destruct Hk as [Hk|Hk]; [|exact Hk]; exfalso; rewrite <- (firstn_skipn m R) in HA; apply Forall_app in HA as [HA _]; rewrite (filter_none _ HA) in Hk; cbn in Hk; lia. }
          rewrite <- (app_nil_r R) in Hat; destruct (ab_call m s R [] Hat HA Hm) as (s1 & H1 & Hat1 & Hns1 & HP1).
          destruct (IH 0 s1 [] (Hat1 0) (or_intror (le_n 0))) as (s2 & H2 & Hz & HP2 & HP3).
          exists s2; split; [|split; [discriminate|split]].
          * rewrite (filter_none _ HA), outs_nil; exact (calls_S _ _ _ _ _ _ _ H1 H2).
          * intros A0 c0 B0 -> Hc0; exfalso; apply Forall_elt in HA; congruence.
          * intros _; destruct k as [|k]; [rewrite (Hz eq_refl); exact HP1|].
            specialize (HP3 ltac:(cbn; lia)); rewrite Hns1 in HP3; cbn [heads flat_map] in HP3; rewrite !app_nil_r in HP3; rewrite HP3; exact HP1.
    Qed.
  End W.

  (** *** The iterators walk like that *)
  Lemma ldl_loop F : forall ja log q ns x r' log' q' ns', loop ab_body F (ja, log, q, ns) = Ok (x, (r', log', q', ns')) ->
    r' = None /\
    loop (ldl_body gv into_iter poll) F (ja, mkLdl log None [] q (map value ns)) =
      Ok (match x with Some c => hd_error (map value c) | None => None end, mkLdl log' None [] q' (map value ns')).
  Proof.
    induction F as [|F IH]; intros ja log q ns x r' log' q' ns'; [discriminate|]; cbn [loop]; unfold ab_body at 1, ldl_body at 1.
    cbn [ldl_top ldl_bottom ldl_log ldl_root ldl_items]; destruct q as [|it q]; [intros [= <- <- <- <- <-]; auto|].
    destruct (poll it) as [[n|] it'].
    - rewrite (gv_eq gv n); apply (IH true _ _ (n :: ns)).
    - destruct ja; [intros [= <- <- <- <- <-]; destruct ns; auto|].
      intros H; apply IH in H; destruct ns; exact H.
  Qed.
  Definition Rldl (m : nat) (Y : list (option (list Nd))) (s1 : ab_state) (s2 : ldl Nd V It) : Prop :=
    let '(r, log, q, ns) := s1 in s2 = mkLdl log r [] q (map value ns).
  Lemma ldl_follow F m Y s1 s2 x s1' : Rldl (S m) Y s1 s2 -> ab_next F s1 = Ok (x, s1') ->
    exists s2', ldl_next gv into_iter poll F s2 = Ok (match x with Some c => hd_error (map value c) | None => None end, s2') /\ Rldl m (Y ++ [x]) s1' s2'.
  Proof.
    destruct s1 as [[[r log] q] ns], s1' as [[[r' log'] q'] ns']; cbn [Rldl]; intros ->; unfold ab_next, ldl_next; cbn [ldl_root ldl_log ldl_bottom ldl_top ldl_items].
    destruct r as [n|]; [rewrite (gv_eq gv n)|]; intros H; apply ldl_loop in H as [-> H]; cbn [map] in H; rewrite H; eexists; split; reflexivity.
  Qed.
  Lemma more_ldl s : more (fun f => ldl_next gv into_iter poll f s).
  Proof. unfold ldl_next; destruct (ldl_root s) as [n|]; [rewrite (gv_eq gv n)|]; apply more_loop; intros t ? ? _ _; reflexivity. Qed.

  Lemma ldal_loop F : forall ja log q ns x r' log' q' ns', length q = length ns -> (ja = true -> q <> []) ->
    loop ab_body F (ja, log, q, ns) = Ok (x, (r', log', q', ns')) ->
    r' = None /\ length q' = length ns' /\ match x with Some c => ns' = tl c /\ c <> [] | None => ns' = [] end /\
    loop (ldal_body gv into_iter poll) F (ja, mkLdal log None (map value ns) [] q) =
      Ok (mkLdal log' None (match x with Some c => map value c | None => [] end) [] q').
  Proof.
    induction F as [|F IH]; intros ja log q ns x r' log' q' ns' Hl Hq; [discriminate|]; cbn [loop]; unfold ab_body at 1, ldal_body at 1.
    cbn [lda_new lda_old lda_log lda_root lda_items]; destruct q as [|it q].
    - destruct ns; [|discriminate]; destruct ja; [destruct (Hq eq_refl eq_refl)|]; intros [= <- <- <- <- <-]; auto.
    - destruct ns as [|n0 ns]; [discriminate|]; destruct (poll it) as [[n|] it'].
      + rewrite (gv_eq gv n); apply (IH true _ _ (n :: n0 :: ns)); [cbn [length] in *; lia|discriminate].
      + injection Hl as Hl; destruct ja; [intros [= <- <- <- <- <-]; repeat split; auto; discriminate|].
        intros H; pose proof (IH false _ _ _ _ _ _ _ _ Hl ltac:(discriminate) H) as (H1 & H2 & H3 & H4); repeat split; auto.
        cbn [tl map]; destruct ns as [|n1 ns]; [|exact H4].
        destruct q; [|discriminate]; destruct F; [discriminate|]; cbn [loop ab_body tl] in H; injection H as <- <- <- <- <-; reflexivity.
  Qed.
  Definition Rldal (m : nat) (Y : list (option (list Nd))) (s1 : ab_state) (s2 : ldal Nd V It) : Prop :=
    let '(r, log, q, ns) := s1 in
    length q = length ns /\ exists items, s2 = mkLdal log r items [] q /\
    match r with Some n => items = [] /\ ns = [] | None => tl items = map value ns end.
  Lemma ldal_follow F m Y s1 s2 x s1' : Rldal (S m) Y s1 s2 -> ab_next F s1 = Ok (x, s1') ->
    exists s2', ldal_next gv into_iter poll F s2 = Ok (option_map (fun c => rev (map value c)) x, s2') /\ Rldal m (Y ++ [x]) s1' s2'.
  Proof.
    destruct s1 as [[[r log] q] ns], s1' as [[[r' log'] q'] ns']; cbn [Rldal]; intros (Hl & items & -> & Hi); unfold ab_next, ldal_next, ldal_advance; cbn [lda_root lda_log lda_old lda_new lda_items].
    destruct r as [n|]; intros H.
    - destruct Hi as [-> ->]; rewrite (gv_eq gv n); apply ldal_loop in H as (-> & H2 & H3 & H4); [|cbn [length] in *; lia|discriminate].
      cbn [map] in H4; rewrite H4; cbn [bindR lda_items]; exists (mkLdal log' None (match x with Some c => map value c | None => [] end) [] q'); split; [|split; [exact H2|exists (match x with Some c => map value c | None => [] end); split; [reflexivity|]]]; destruct x as [c|].
      + destruct H3 as [_ H3]; destruct c; [congruence|]; reflexivity.
      + reflexivity.
      + destruct H3 as [-> _]; destruct c; reflexivity.
      + subst; reflexivity.
    - rewrite Hi; apply ldal_loop in H as (-> & H2 & H3 & H4); [|exact Hl|discriminate].
      rewrite H4; cbn [bindR lda_items]; exists (mkLdal log' None (match x with Some c => map value c | None => [] end) [] q'); split; [|split; [exact H2|exists (match x with Some c => map value c | None => [] end); split; [reflexivity|]]]; destruct x as [c|].
      + destruct H3 as [_ H3]; destruct c; [congruence|]; reflexivity.
      + reflexivity.
      + destruct H3 as [-> _]; destruct c; reflexivity.
      + subst; reflexivity.
  Qed.
  Lemma more_ldal s : more (fun f => ldal_next gv into_iter poll f s).
  Proof.
    unfold ldal_next, ldal_advance; destruct (lda_root s) as [n|]; [rewrite (gv_eq gv n)|];
      (apply (more_bind (fun f => loop _ f _)); [apply more_loop; intros t ? ? _ _; reflexivity|intros; apply more_const]).
  Qed.

  (** *** In terms of positions *)
  Definition chain_of (p : pos Nd) : list Nd := pos_here p :: rev (pos_above p).
  Lemma chains_post : forall t path above, map chain_of (postorder (annotate path above t)) = pchains (rev above) t.
  Proof.
    fix IH 1; intros [n ts] path above; cbn [annotate postorder pchains]; rewrite map_app; cbn [map chain_of pos_here pos_above]; f_equal.
    replace (n :: rev above) with (rev (above ++ [n])) by (rewrite rev_app_distr; reflexivity).
    generalize (above ++ [n]); clear above; intros above; generalize 0.
    induction ts as [|t ts IHt]; intros i; [reflexivity|]; rewrite mapi_cons; cbn [flat_map]; rewrite map_app, IH, IHt; reflexivity.
  Qed.
  Lemma heads_chains (l : list (pos Nd)) : heads (map chain_of l) = map pos_here l.
  Proof. induction l as [|p l IH]; [reflexivity|]; cbn [map heads flat_map]; fold (heads (map chain_of l)); rewrite IH; reflexivity. Qed.
  Lemma filter_chains (l : list (pos Nd)) : filter leafc (map chain_of l) = map chain_of (filter (fun p => childless (pos_here p)) l).
  Proof. induction l as [|p l IH]; [reflexivity|]; cbn [map filter leafc chain_of]; destruct (childless (pos_here p)); cbn [map]; rewrite IH; reflexivity. Qed.

  Definition leafp (p : pos Nd) : bool := childless (pos_here p).
  Section Run.
    Variable W : nat -> list It -> list (list (tree Nd)) -> Prop.
    Hypothesis W_shape : forall m q2 q1, W m q2 q1 -> length q2 = length q1.
    Hypothesis W_nil : forall m, W m [] [].
    Hypothesis W_poll : forall m it q2 l q1, W (S m) (it :: q2) (l :: q1) ->
      match l with
      | [] => exists it', poll it = (None, it') /\ W m q2 q1
      | t :: l' => exists it', poll it = (Some (root t), it') /\ W (S m) (kids (root t) :: it' :: q2) (subs t :: l' :: q1)
      end.
    Variables (t : tree Nd) (m k : nat).
    Hypothesis Hw : W m [kids (root t)] [subs t].
    Local Notation P := (postorder (positions t)).
    Hypothesis Hk : k <= length (filter leafp (firstn m P)) \/ length P <= m.

    (** What has been entered when [k] leaves have been given. *)
    Definition log_ok (log : list Nd) : Prop :=
      (k = 0 -> log = []) /\
      (forall i p, nth_error P i = Some p -> leafp p = true -> length (filter leafp (firstn (S i) P)) = k -> Permutation log (entered (S i) P)) /\
      (length (filter leafp P) < k -> Permutation log (map pos_here P)).

    Lemma run_ab : exists r log q ns, calls ab_next k (Some (root t), [], [], []) ⇓ Ok (map (nth_error (map chain_of (filter leafp P))) (seq 0 k), (r, log, q, ns)) /\ log_ok log.
    Proof.
      assert (HR : pchains [] t = map chain_of P) by (symmetry; apply chains_post).
      destruct (ab_calls W W_shape W_nil W_poll k m (Some (root t), [], [], []) (map chain_of P)) as ([[[r log] q] ns] & H & Hz & H1 & H2).
      - exists t; repeat split; auto.
      - rewrite firstn_map, filter_chains, !map_length; exact Hk.
      - exists r, log, q, ns; rewrite filter_chains in H; split; [exact H|]; cbn [ab_log ab_ns] in *; rewrite app_nil_r in *; cbn [app] in *; split; [exact Hz|split].
        + intros i p Hp Hlf Hlen; specialize (H1 (map chain_of (firstn i P)) (chain_of p) (map chain_of (skipn (S i) P))).
          assert (Es : firstn (S i) P = firstn i P ++ [p]).
          { clear -Hp; revert i Hp; generalize P; intros l; induction l as [|x l IH]; intros [|i]; cbn [nth_error]; try discriminate.
            - intros [= ->]; reflexivity.
            - intros H; cbn [firstn app]; f_equal; apply IH, H. }
          rewrite <- (map_app chain_of (firstn i P) [p] : map chain_of (firstn i P ++ [p]) = map chain_of (firstn i P) ++ [chain_of p]) in H1.
          rewrite <- Es, filter_chains, map_length, heads_chains in H1; fold leafp in H1.
          rewrite H1; [|change (chain_of p :: map chain_of (skipn (S i) P)) with (map chain_of (p :: skipn (S i) P)); rewrite <- map_app|exact Hlf|exact Hlen].
          * unfold entered; rewrite Hp; apply Permutation_app_head; cbn [tl chain_of]; apply Permutation_sym, Permutation_rev.
          * f_equal; rewrite <- (firstn_skipn (S i) P) at 1; rewrite Es, <- app_assoc; reflexivity.
        + intros Hlt; rewrite filter_chains, map_length in H2; rewrite <- heads_chains; apply H2; exact Hlt.
    Qed.

    Lemma run_ldl : exists s, calls (ldl_next gv into_iter poll) k (mkLdl [] (Some (root t)) [] [] []) ⇓ Ok (map (nth_error (map (fun p => value (pos_here p)) (filter leafp P))) (seq 0 k), s) /\ log_ok (ldl_log s).
    Proof.
      destruct run_ab as (r & log & q & ns & H & Hlog).
      destruct (follow ab_next (ldl_next gv into_iter poll) _ (fun F => F) Rldl ldl_follow more_ldl k (Some (root t), [], [], []) (mkLdl [] (Some (root t)) [] [] []) _ _ eq_refl H) as (s & Hs & HR).
      cbn [Rldl] in HR; subst s; exists (mkLdl log r [] q (map value ns)); split; [|exact Hlog].
      rewrite map_map in Hs; erewrite map_ext; [exact Hs|]; intros i; cbv beta; rewrite !nth_error_map.
      destruct (nth_error (filter leafp P) i); reflexivity.
    Qed.
    Lemma run_ldal : exists s, calls (ldal_next gv into_iter poll) k (mkLdal [] (Some (root t)) [] [] []) ⇓ Ok (map (nth_error (map (ancestors_at gv) (filter leafp P))) (seq 0 k), s) /\ log_ok (lda_log s).
    Proof.
      destruct run_ab as (r & log & q & ns & H & Hlog).
      assert (H0 : Rldal k [] (Some (root t), [], [], []) (mkLdal [] (Some (root t)) [] [] [])) by (split; [reflexivity|]; exists []; repeat split).
      destruct (follow ab_next (ldal_next gv into_iter poll) _ (fun F => F) Rldal ldal_follow more_ldal k _ _ _ _ H0 H) as (s & Hs & HR).
      cbn [Rldal] in HR; destruct HR as (_ & items & -> & _); exists (mkLdal log r items [] q); split; [|exact Hlog].
      rewrite map_map in Hs; erewrite map_ext; [exact Hs|]; intros i; cbv beta; rewrite !nth_error_map.
      destruct (nth_error (filter leafp P) i) as [p|]; [|reflexivity]; cbn [option_map]; f_equal.
      unfold ancestors_at, chain_of; cbn [map rev]; rewrite map_app, map_rev, rev_involutive; reflexivity.
    Qed.
  End Run.
End Depth.
