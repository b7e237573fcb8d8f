(** * Proofs for the depth-first preorder iterators with ancestors and with context. *)
From Verif Require Import Prelim PrelimFacts Spec SpecFacts ModelNode NodeFacts ModelPre Slots ProofsPlain.

(** ** Simulation lemmas *)
Section Sim.
  Context {S1 S2 R1 R2 : Type} (phi : S1 -> S2) (psi : R1 -> R2).
  Definition sum_map (x : S1 + R1) : S2 + R2 :=
    match x with inl a => inl (phi a) | inr b => inr (psi b) end.
  Lemma loop_sim_ok (b1 : nat -> S1 -> Res (S1 + R1)) (b2 : nat -> S2 -> Res (S2 + R2)) :
    (forall f s x, b1 f s = Ok x -> b2 f (phi s) = Ok (sum_map x)) ->
    forall f s r, loop b1 f s = Ok r -> loop b2 f (phi s) = Ok (psi r).
  Proof.
    intros H f; induction f as [|f IH]; cbn; intros s r E; [discriminate|].
    destruct (b1 f s) as [[s'|r']| | |] eqn:Eb; try discriminate.
    - rewrite (H _ _ _ Eb); cbn; apply IH; exact E.
    - rewrite (H _ _ _ Eb); cbn; congruence.
  Qed.
End Sim.

Lemma calls_sim_ok {S1 S2 O1 O2} (phi : S1 -> S2) (psi : O1 -> O2)
    (n1 : nat -> S1 -> Res (O1 * S1)) (n2 : nat -> S2 -> Res (O2 * S2)) :
  (forall f s o s', n1 f s = Ok (o, s') -> n2 f (phi s) = Ok (psi o, phi s')) ->
  forall f k s os s', calls n1 k s f = Ok (os, s') -> calls n2 k (phi s) f = Ok (map psi os, phi s').
Proof.
  intros H f; induction k as [|k IH]; cbn; intros s os s' E; [injection E as <- <-; reflexivity|].
  destruct (n1 f s) as [[o s1]| | |] eqn:E1; cbn in E; try discriminate.
  destruct (calls n1 k s1 f) as [[os1 s2]| | |] eqn:E2; cbn in E; try discriminate.
  injection E as <- <-.
  rewrite (H _ _ _ _ E1); cbn; rewrite (IH _ _ _ E2); reflexivity.
Qed.

Lemma yields_sim_ok {S1 S2 A B} (phi : S1 -> S2) (g : A -> B)
    (n1 : nat -> S1 -> Res (option A * S1)) (n2 : nat -> S2 -> Res (option B * S2)) :
  (forall f s o s', n1 f s = Ok (o, s') -> n2 f (phi s) = Ok (option_map g o, phi s')) ->
  forall s l, yields n1 s l -> yields n2 (phi s) (map g l).
Proof.
  intros H s l Hy k; destruct (Hy k) as [s' [F HF]].
  exists (phi s'), F; intros f Hf.
  rewrite (calls_sim_ok phi (option_map g) n1 n2 H _ _ _ _ _ (HF f Hf)), map_map.
  do 2 f_equal; apply map_ext; intros i; rewrite nth_error_map; reflexivity.
Qed.

Lemma yields_ext {S A} (n1 n2 : nat -> S -> Res (option A * S)) s l :
  (forall f s, n1 f s = n2 f s) -> yields n1 s l -> yields n2 s l.
Proof.
  intros H Hy k; destruct (Hy k) as [s' [F HF]]; exists s', F; intros f Hf.
  rewrite <- (HF f Hf); clear HF; revert s Hy; induction k as [|k IH]; intros s Hy; cbn; [reflexivity|].
  rewrite <- H; destruct (n1 f s) as [[o s1]| | |]; cbn; try reflexivity.
  assert (E : forall k s, calls n2 k s f = calls n1 k s f).
  { clear -H; induction k as [|k IH]; intros s; cbn; [reflexivity|].
    rewrite H; destruct (n2 f s) as [[o s1]| | |]; cbn; try reflexivity; rewrite IH; reflexivity. }
  rewrite E; reflexivity.
Qed.

(** ** Preorder with ancestors *)
Section PreAnc.
  Context {Nd V : Type} (gvc : Nd -> V * list Nd) (nt : Nd -> tree Nd).
  Hypothesis Hnt : node_tree gvc nt.
  Local Notation value := (nval gvc).
  Local Notation kids := (nkids gvc).

  (** Ancestor lists (root first) of the nodes below, in preorder. *)
  Definition apre (ab : list Nd) (n : Nd) : list (list V) := map (ancestors_at gvc) (preorder (annotate [] ab (nt n))).

  Lemma panc_path_irrelevant : forall (t : tree Nd) p q ab,
    map (ancestors_at gvc) (preorder (annotate p ab t)) = map (ancestors_at gvc) (preorder (annotate q ab t)).
  Proof.
    intros t; induction t as [v ts IH] using tree_ind'; intros p q ab; cbn; f_equal.
    rewrite !map_flat_map; generalize 0 as i.
    induction IH as [|x l Hx _ IHl]; intros i; cbn; [reflexivity|].
    rewrite (Hx (p ++ [i]) (q ++ [i])), IHl; reflexivity.
  Qed.

  Lemma apre_unfold ab n : apre ab n = map value (ab ++ [n]) :: flat_map (apre (ab ++ [n])) (kids n).
  Proof.
    unfold apre; rewrite (nt_unfold _ _ Hnt n); cbn [annotate preorder map]; f_equal.
    rewrite map_flat_map; generalize 0 as i.
    induction (kids n) as [|c cs IH]; intros i; cbn; [reflexivity|].
    rewrite IH; f_equal; apply panc_path_irrelevant.
  Qed.

  (** stack and open nodes (innermost first) *)
  Fixpoint aout (stack : list (list Nd)) (anc : list Nd) : list (list V) :=
    match stack, anc with
    | top :: stack', _ :: anc' => flat_map (apre (rev anc)) top ++ aout stack' anc'
    | _, _ => []
    end.

  Definition prea_R (s : prea Nd V) (l : list (list V)) : Prop :=
    match pa_root s with
    | Some n => pa_stack s = [] /\ pa_items s = [] /\ l = apre [] n
    | None => exists anc, length anc = length (pa_stack s) /\ pa_items s = map value anc /\
                          l = aout (pa_stack s) anc
    end.

  Lemma prea_loop stack : forall anc, length anc = length stack ->
    (aout stack anc = [] /\ (fun f => loop (@prea_body Nd V) f (stack, map value anc)) ⇓ Ok (None, [], [])) \/
    exists c stack' anc', length anc' = length stack' /\
      (fun f => loop (@prea_body Nd V) f (stack, map value anc)) ⇓ Ok (Some c, stack', map value anc') /\
      aout stack anc = map value (rev (c :: anc')) :: aout (kids c :: stack') (c :: anc').
  Proof.
    induction stack as [|top rest IH]; intros anc Hlen.
    - destruct anc; [|discriminate].
      left; split; [reflexivity|apply loop_done; now_conv].
    - destruct anc as [|a anc]; [discriminate|]; injection Hlen as Hlen.
      destruct top as [|c top].
      + destruct (IH anc Hlen) as [[E Hl]|(c & stack' & anc' & Hlen' & Hl & E)].
        * left; split; [exact E|]; eapply loop_step; [now_conv|exact Hl].
        * right; exists c, stack', anc'; repeat split; auto.
          eapply loop_step; [now_conv|exact Hl].
      + right; exists c, (top :: rest), (a :: anc); repeat split; [cbn; lia|apply loop_done; now_conv|].
        cbn [aout flat_map]; rewrite apre_unfold; cbn [app rev]; rewrite <- !app_assoc; reflexivity.
  Qed.

  Lemma prea_get_items r stack anc : prea_get (Nd:=Nd) (mkPrea r stack (map value anc)) =
    match anc with [] => None | _ => Some (map value (rev anc)) end.
  Proof. destruct anc as [|a anc]; [reflexivity|]; unfold prea_get; cbn [pa_items map]; rewrite map_rev; reflexivity. Qed.

  Lemma prea_step : step_inv (prea_next gvc) prea_R.
  Proof.
    intros [r stack items] l H; unfold prea_R in H; cbn in H; unfold prea_next, prea_advance; cbn.
    destruct r as [n|].
    - destruct H as (-> & -> & ->).
      exists (mkPrea None [kids n] [value n]); split.
      + rewrite (gv_eq gvc), apre_unfold; now_conv.
      + exists [n]; split; [reflexivity|split; [reflexivity|]].
        rewrite apre_unfold; cbn; rewrite app_nil_r; reflexivity.
    - destruct H as (anc & Hlen & -> & ->).
      destruct (prea_loop stack anc Hlen) as [[E Hl]|(c & stack' & anc' & Hlen' & Hl & E)].
      + exists (mkPrea None [] []); split.
        * rewrite E; eapply conv_bind; [eapply conv_bind; [exact Hl|now_conv]|now_conv].
        * exists []; rewrite E; auto.
      + exists (mkPrea None (kids c :: stack') (map value (c :: anc'))); split.
        * rewrite E; eapply conv_bind.
          -- eapply conv_bind; [exact Hl|]; cbn beta iota; rewrite (gv_eq gvc); now_conv.
          -- apply conv_eq; intros f; change (nval gvc c :: map value anc') with (map value (c :: anc')).
             rewrite prea_get_items; reflexivity.
        * exists (c :: anc'); rewrite E; cbn; repeat split; lia.
  Qed.

  Lemma prea_yields n :
    yields (prea_next gvc) (prea_new n) (map (ancestors_at gvc) (preorder (positions (nt n)))).
  Proof. apply (step_inv_yields _ _ prea_step); unfold prea_R; cbn; auto. Qed.
End PreAnc.

(** ** Preorder with context *)
Section PreCtx.
  Context {Nd V C : Type} (gv : Nd -> V * C) (into_iter : C -> list (option Nd)).
  Local Notation value := (nval gv).
  Local Notation slots := (fun n => into_iter (nkids gv n)).
  Context (T : list nat -> list Nd -> Nd -> tree (pos Nd)) (ok : Nd -> Prop) (P0 : list nat).
  Hypothesis HT : slot_law slots T.
  Hypothesis Hok : small_law slots ok.

  Lemma scan_spec p ab : forall l j path, (N.of_nat (j + length l) <= usize_max)%N ->
    (sforest T p ab j l = [] /\ exists path', prec_scan l (enc j :: path) = Ok (None, [], path' :: path)) \/
    exists c i l', prec_scan l (enc j :: path) = Ok (Some c, l', N.of_nat i :: path) /\
      In (Some c) l /\ (forall x, In x l' -> In x l) /\ i + S (length l') = j + length l /\
      sforest T p ab j l = T (p ++ [i]) ab c :: sforest T p ab (S i) l'.
  Proof.
    induction l as [|o l IH]; intros j path Hb.
    - left; split; [reflexivity|eexists; reflexivity].
    - cbn [length] in Hb; cbn [prec_scan incr_last bindR]; rewrite enc_succ by lia.
      destruct o as [c|].
      + right; exists c, j, l; cbn [length]; repeat split; [left; reflexivity|intros; right; assumption].
      + change (N.of_nat j) with (enc (S j)).
        destruct (IH (S j) path ltac:(lia)) as [[E Hs]|(c & i & l' & Hs & Hin & Hsub & Hlen & E)].
        * left; split; [exact E|exact Hs].
        * right; exists c, i, l'; cbn [length]; repeat split;
            [exact Hs|right; exact Hin|intros; right; auto|lia|exact E].
  Qed.

  Fixpoint fr_out (fs : list (frame Nd)) : list (pos Nd) :=
    match fs with
    | [] => []
    | f :: fs' =>
        flat_map preorder (sforest T (rev (fpath P0 fs')) (rev (f_node f :: fanc fs')) (f_next f) (f_slots f)) ++ fr_out fs'
    end.

  Lemma fr_enter f fs c i l' ab :
    ab = rev (f_node f :: fanc fs) ->
    flat_map preorder (T (rev (fpath P0 fs) ++ [i]) ab c
                         :: sforest T (rev (fpath P0 fs)) ab (S i) l') ++ fr_out fs =
    let fs1 := mkFrame l' (S i) (f_node f) :: fs in
    mkPos (rev (fpath P0 fs1)) (rev (fanc fs1)) c :: fr_out (mkFrame (slots c) 0 c :: fs1).
  Proof.
    intros ->; cbn zeta; cbn [flat_map fr_out f_next f_slots f_node fpath fanc map pred rev].
    rewrite HT; cbn [preorder app]; f_equal; rewrite <- !app_assoc; f_equal.
  Qed.

  Definition st_of (fs : list (frame Nd)) : list (list (option Nd)) * list N * list V :=
    (map f_slots fs, spath P0 fs, map value (fanc fs)).

  Lemma precb_loop : forall fs, Forall (frame_ok ok) fs -> frames_ok ok (tl fs) ->
    (fr_out fs = [] /\ exists path anc, (fun f => loop (@precb_body Nd V) f (st_of fs)) ⇓ Ok (None, ([], path, anc))) \/
    exists c fs1, frames_ok ok fs1 /\ ok c /\ fs1 <> [] /\
      (fun f => loop (@precb_body Nd V) f (st_of fs)) ⇓
        Ok (Some c, (map f_slots fs1, map N.of_nat (fpath P0 fs1), map value (fanc fs1))) /\
      fr_out fs = mkPos (rev (fpath P0 fs1)) (rev (fanc fs1)) c :: fr_out (mkFrame (slots c) 0 c :: fs1).
  Proof.
    induction fs as [|f fs IH]; intros Hall Hent.
    - left; split; [reflexivity|]; eexists _, _; apply loop_done; now_conv.
    - inversion Hall as [|? ? Hf Hall']; subst; cbn [tl] in Hent.
      destruct f as [l j a]; destruct Hf as [Hf1 Hf2]; cbn [f_slots f_next] in Hf1, Hf2.
      destruct (scan_spec (rev (fpath P0 fs)) (rev (a :: fanc fs)) l j (map N.of_nat (fpath P0 fs)) Hf2)
        as [[E [path' Hs]]|(c & i & l' & Hs & Hin & Hsub & Hlen & E)].
      + assert (E2 : fr_out (mkFrame l j a :: fs) = fr_out fs)
          by (cbn [fr_out f_node f_next f_slots]; rewrite E; reflexivity).
        rewrite E2.
        assert (Hb : forall g, @precb_body Nd V g (st_of (mkFrame l j a :: fs)) = Ok (inl (st_of fs))).
        { intros g; unfold st_of, precb_body; cbn [map spath f_slots f_next f_node fanc]; rewrite Hs; cbn.
          rewrite (entered_spath P0 ok fs Hent); reflexivity. }
        destruct IH as [[E3 (path & anc & Hl)]|(c & fs1 & H1 & H2 & H2' & Hl & E3)]; [exact Hall'| | |].
        * destruct fs; [constructor|inversion Hent; assumption].
        * left; split; [exact E3|]; exists path, anc.
          eapply loop_step; [apply conv_eq; exact Hb|exact Hl].
        * right; exists c, fs1; repeat split; auto.
          eapply loop_step; [apply conv_eq; exact Hb|exact Hl].
      + right; exists c, (mkFrame l' (S i) a :: fs); repeat split.
        * constructor; [|exact Hent]; split; [split|cbn; lia]; cbn [f_slots f_next].
          -- intros x Hx; apply Hf1, Hsub, Hx.
          -- lia.
        * apply Hf1; exact Hin.
        * discriminate.
        * apply loop_done, conv_eq; intros g; unfold st_of, precb_body.
          cbn [map spath f_slots f_next f_node fanc]; rewrite Hs; reflexivity.
        * cbn [fr_out f_node f_next f_slots]; rewrite E.
          exact (fr_enter (mkFrame l j a) fs c i l' (rev (a :: fanc fs)) eq_refl).
  Qed.

  Definition precb_R (s : prec Nd V (option Nd) C) (l : list (tree_context V C)) : Prop :=
    (exists n, ok n /\ s = prec_new n (map N.of_nat P0) /\ l = map (context_at gv) (preorder (T P0 [] n))) \/
    (exists n fs, ok n /\ frames_ok ok fs /\
       s = mkPrec None (map f_slots fs) (map N.of_nat (fpath P0 fs)) (map value (n :: fanc fs)) (Some (nkids gv n)) /\
       l = map (context_at gv) (fr_out (mkFrame (slots n) 0 n :: fs))) \/
    (pc_root s = None /\ pc_anc s = [] /\ l = []).

  Lemma prec_get_at stack p n anc : 
    prec_get (Nd:=Nd) (V:=V) (I:=option Nd)
      (mkPrec None stack (map N.of_nat p) (map value (n :: anc)) (Some (nkids gv n))) =
    Some (context_at gv (mkPos (rev p) (rev anc) n)).
  Proof.
    unfold prec_get, context_at; cbn [pc_anc pc_path pc_children pos_path pos_above pos_here map].
    rewrite map_app, !map_rev; reflexivity.
  Qed.

  Lemma precb_step : step_inv (precb_next gv into_iter) precb_R.
  Proof.
    intros s l [(n & Hn & -> & ->)|[(n & fs & Hn & Hfs & -> & ->)|(Hr & Ha & ->)]].
    - exists (mkPrec None [] (map N.of_nat (rev P0)) [value n] (Some (nkids gv n))); split.
      + apply conv_eq; intros f; unfold precb_next, precb_advance, prec_advance_with, prec_new; cbn [pc_root].
        rewrite (gv_eq gv n); cbn [bindR pc_stack pc_path pc_anc].
        rewrite <- map_rev.
        change [nval gv n] with (map value (n :: [])); rewrite prec_get_at.
        rewrite HT; cbn [preorder map hd_error rev]; rewrite rev_involutive; reflexivity.
      + right; left; exists n, []; repeat split; [exact Hn|constructor|].
        rewrite HT; cbn [preorder map tl fr_out fpath fanc f_node f_next f_slots rev app].
        rewrite rev_involutive, app_nil_r; reflexivity.
    - assert (Hb : forall f, precb_next gv into_iter f
         (mkPrec None (map f_slots fs) (map N.of_nat (fpath P0 fs)) (map value (n :: fanc fs)) (Some (nkids gv n))) =
         bindR (bindR (loop precb_body f (st_of (mkFrame (slots n) 0 n :: fs)))
           (fun '(next, (stack, path, anc)) =>
              match next with
              | Some node => let '(value, children) := gv node in Ok (mkPrec None stack path (value :: anc) (Some children))
              | None => Ok (mkPrec None stack path [] None)
              end)) (fun s' => Ok (prec_get s', s'))) by reflexivity.
      destruct (precb_loop (mkFrame (slots n) 0 n :: fs)) as [[E (path & anc & Hl)]|(c & fs1 & H1 & H2 & H2' & Hl & E)].
      + constructor; [apply (frame_ok_new slots ok n Hok Hn)|].
        eapply Forall_impl; [|exact Hfs]; cbn; intros ? [? _]; assumption.
      + exact Hfs.
      + exists (mkPrec None [] path [] None); split.
        * rewrite E; eapply conv_ext; [exact Hb|].
          eapply conv_bind; [eapply conv_bind; [exact Hl|now_conv]|now_conv].
        * right; right; rewrite E; auto.
      + exists (mkPrec None (map f_slots fs1) (map N.of_nat (fpath P0 fs1)) (map value (c :: fanc fs1)) (Some (nkids gv c))).
        split.
        * rewrite E; eapply conv_ext; [exact Hb|].
          eapply conv_bind; [eapply conv_bind; [exact Hl|]|].
          -- cbn beta iota; rewrite (gv_eq gv c); now_conv.
          -- apply conv_eq; intros f.
             change (nval gv c :: map value (fanc fs1)) with (map value (c :: fanc fs1)).
             rewrite prec_get_at; reflexivity.
        * right; left; exists c, fs1; rewrite E; auto.
    - exists s; split.
      + apply conv_eq; intros f; unfold precb_next, precb_advance, prec_advance_with; rewrite Hr, Ha.
        cbn; unfold prec_get; rewrite Ha; reflexivity.
      + right; right; auto.
  Qed.

  Lemma precb_yields n : ok n ->
    yields (precb_next gv into_iter) (prec_new n (map N.of_nat P0)) (map (context_at gv) (preorder (T P0 [] n))).
  Proof. intros Hn; apply (step_inv_yields _ _ precb_step); left; eauto. Qed.
End PreCtx.

(** ** The n-ary machine is the slot machine without empty slots *)
Section PreNary.
  Context {Nd V : Type} (gvc : Nd -> V * list Nd).

  Definition unslot_prec (s : prec Nd V (option Nd) (list Nd)) : prec Nd V Nd (list Nd) :=
    mkPrec (pc_root s) (map (flat_map opt_list) (pc_stack s)) (pc_path s) (pc_anc s) (pc_children s).
  Definition slot_prec (s : prec Nd V Nd (list Nd)) : prec Nd V (option Nd) (list Nd) :=
    mkPrec (pc_root s) (map (map Some) (pc_stack s)) (pc_path s) (pc_anc s) (pc_children s).

  Definition slot_loop (s : pc_loop_st (V:=V) Nd) : pc_loop_st (V:=V) (option Nd) :=
    let '(st, p, a) := s in (map (map Some) st, p, a).
  Definition slot_loop_r (s : option Nd * pc_loop_st (V:=V) Nd) : option Nd * pc_loop_st (V:=V) (option Nd) :=
    let '(o, s) := s in (o, slot_loop s).
End PreNary.

(** If the second machine simulates the first exactly (through an injection of states), what it yields the first yields. *)
Definition Rmap {A B} (f : A -> B) (r : Res A) : Res B :=
  match r with Ok a => Ok (f a) | Panic => Panic | UB => UB | OutOfFuel => OutOfFuel end.

Lemma loop_sim {S1 S2 R1 R2} (phi : S1 -> S2) (psi : R1 -> R2)
    (b1 : nat -> S1 -> Res (S1 + R1)) (b2 : nat -> S2 -> Res (S2 + R2)) :
  (forall f s, b2 f (phi s) = Rmap (sum_map phi psi) (b1 f s)) ->
  forall f s, loop b2 f (phi s) = Rmap psi (loop b1 f s).
Proof.
  intros H f; induction f as [|f IH]; cbn; intros s; [reflexivity|].
  rewrite H; destruct (b1 f s) as [[s'|r']| | |]; cbn; auto.
Qed.

Lemma calls_sim {S1 S2 O} (phi : S1 -> S2) (n1 : nat -> S1 -> Res (O * S1)) (n2 : nat -> S2 -> Res (O * S2)) :
  (forall f s, n2 f (phi s) = Rmap (fun '(o, s') => (o, phi s')) (n1 f s)) ->
  forall f k s, calls n2 k (phi s) f = Rmap (fun '(os, s') => (os, phi s')) (calls n1 k s f).
Proof.
  intros H f; induction k as [|k IH]; intros s; cbn; [reflexivity|].
  rewrite H; destruct (n1 f s) as [[o s1]| | |]; cbn; try reflexivity.
  rewrite IH; destruct (calls n1 k s1 f) as [[os s2]| | |]; reflexivity.
Qed.

Lemma yields_sim {S1 S2 A} (phi : S1 -> S2) (n1 : nat -> S1 -> Res (option A * S1)) (n2 : nat -> S2 -> Res (option A * S2)) :
  (forall x y, phi x = phi y -> x = y) ->
  (forall f s, n2 f (phi s) = Rmap (fun '(o, s') => (o, phi s')) (n1 f s)) ->
  forall s l, yields n2 (phi s) l -> yields n1 s l.
Proof.
  intros Hinj H s l Hy k; destruct (Hy k) as [s2 [F HF]].
  pose proof (HF F ltac:(lia)) as H0; rewrite (calls_sim phi _ _ H) in H0.
  destruct (calls n1 k s F) as [[os s1]| | |]; cbn in H0; try discriminate.
  injection H0 as -> E.
  exists s1, F; intros f Hf; specialize (HF f Hf); rewrite (calls_sim phi _ _ H) in HF.
  destruct (calls n1 k s f) as [[os' s1']| | |]; cbn in HF; try discriminate.
  injection HF as -> E'; rewrite <- E in E'; apply Hinj in E'; subst; reflexivity.
Qed.

Lemma map_map_Some_inj {A} (l l' : list (list A)) : map (map Some) l = map (map Some) l' -> l = l'.
Proof.
  assert (H : forall a b : list A, map Some a = map Some b -> a = b).
  { induction a as [|x a IH]; intros [|y b] E; try discriminate; [reflexivity|].
    injection E as -> E; rewrite (IH _ E); reflexivity. }
  revert l'; induction l as [|x l IH]; intros [|y l'] E; try discriminate; [reflexivity|].
  injection E as E1 E2; rewrite (H _ _ E1), (IH _ E2); reflexivity.
Qed.

Section PreNary2.
  Context {Nd V : Type} (gvc : Nd -> V * list Nd).

  Lemma prec_body_sim f (s : pc_loop_st (V:=V) Nd) :
    @precb_body Nd V f (slot_loop s) = Rmap (sum_map slot_loop slot_loop_r) (@prec_body Nd V f s).
  Proof.
    destruct s as [[[|top rest] path] anc]; [reflexivity|].
    destruct top as [|n top]; cbn; [reflexivity|].
    destruct (incr_last path); reflexivity.
  Qed.

  Lemma prec_next_sim f s :
    precb_next gvc (map Some) f (slot_prec s) = Rmap (fun '(o, s') => (o, slot_prec s')) (prec_next gvc f s).
  Proof.
    unfold precb_next, prec_next, precb_advance, prec_advance, prec_advance_with.
    destruct s as [r stack path anc ch]; unfold slot_prec; cbn [pc_root pc_stack pc_path pc_anc pc_children].
    destruct r as [n|].
    - destruct (gvc n); reflexivity.
    - destruct anc as [|a anc]; [reflexivity|].
      assert (H : forall st,
        bindR (bindR (loop precb_body f (slot_loop st)) (fun x => let '(next, (stack, path, anc)) := x in
           match next with
           | Some node => let '(value, children) := gvc node in Ok (mkPrec None stack path (value :: anc) (Some children))
           | None => Ok (mkPrec None stack path [] None)
           end)) (fun s' => Ok (prec_get s', s')) =
        Rmap (fun '(o, s') => (o, slot_prec s'))
          (bindR (bindR (loop prec_body f st) (fun x => let '(next, (stack, path, anc)) := x in
             match next with
             | Some node => let '(value, children) := gvc node in Ok (mkPrec None stack path (value :: anc) (Some children))
             | None => Ok (mkPrec None stack path [] None)
             end)) (fun s' => Ok (prec_get s', s')))).
      { intros st; rewrite (loop_sim slot_loop slot_loop_r _ _ prec_body_sim).
        destruct (loop prec_body f st) as [[[c|] [[st2 p2] a2]]| | |]; cbn; try reflexivity.
        destruct (gvc c); reflexivity. }
      destruct ch as [children|].
      + exact (H (children :: stack, usize_max :: path, a :: anc)).
      + exact (H (stack, match path with [] => [] | p :: path' => if (p =? usize_max)%N then path' else p :: path' end, anc)).
  Qed.

  Lemma slot_prec_inj (x y : prec Nd V Nd (list Nd)) : slot_prec x = slot_prec y -> x = y.
  Proof.
    destruct x as [r st p a c], y as [r' st' p' a' c']; unfold slot_prec; cbn; intros E.
    injection E as -> E -> -> ->; apply map_map_Some_inj in E; subst; reflexivity.
  Qed.

  Lemma prec_yields nt P0 n : node_tree gvc nt ->
    small_nodes gvc (nt n) ->
    yields (prec_next gvc) (prec_new n (map N.of_nat P0)) (map (context_at gvc) (preorder (annotate P0 [] (nt n)))).
  Proof.
    intros Hnt Hsm.
    apply (yields_sim slot_prec _ _ slot_prec_inj prec_next_sim).
    exact (precb_yields gvc (map Some) _ _ P0 (slot_law_nary gvc nt Hnt) (small_law_nary gvc nt Hnt) n Hsm).
  Qed.
End PreNary2.
