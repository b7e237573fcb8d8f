(** * Proofs for the breadth-first iterators with context and with ancestors. *)
From Verif Require Import Prelim PrelimFacts Spec SpecFacts ModelNode NodeFacts ModelBfs Slots ProofsPlain ProofsPre BfsCore.

(** ** The positions of a tree as the nodes of [BfsCore] *)
Section PosInst.
  Context {Nd V C : Type} (gv : Nd -> V * C) (into_iter : C -> list (option Nd)).
  Local Notation value := (nval gv).
  Local Notation slots := (fun n => into_iter (nkids gv n)).
  Context (T : list nat -> list Nd -> Nd -> tree (pos Nd)).
  Hypothesis HT : slot_law slots T.

  Fixpoint pk (p : list nat) (ab : list Nd) (j : nat) (l : list (option Nd)) : list (pos Nd) :=
    match l with
    | [] => []
    | Some c :: l' => mkPos (p ++ [j]) ab c :: pk p ab (S j) l'
    | None :: l' => pk p ab (S j) l'
    end.
  Definition pbelow (q : pos Nd) (j : nat) (l : list (option Nd)) : list (pos Nd) :=
    pk (pos_path q) (pos_above q ++ [pos_here q]) j l.
  Definition pslots (q : pos Nd) : list (option Nd) := slots (pos_here q).
  Definition pkids (q : pos Nd) : list (pos Nd) := pbelow q 0 (pslots q).
  Definition ptree (q : pos Nd) : tree (pos Nd) := T (pos_path q) (pos_above q) (pos_here q).
  Definition pval (q : pos Nd) : V := value (pos_here q).
  Definition pseg (q : pos Nd) : N := N.of_nat (last (pos_path q) 0).
  Definition panc (q : pos Nd) : list V := rev (ancestors_at gv q).
  Definition ppath (q : pos Nd) : list N := rev (map N.of_nat (pos_path q)).

  Lemma pk_T p ab l : forall j, sforest T p ab j l = map ptree (pk p ab j l).
  Proof. induction l as [|[c|] l IH]; intros j; cbn; [reflexivity| |apply IH]; rewrite IH; reflexivity. Qed.

  Lemma pnode : node_tree (fun q => (pval q, pkids q)) ptree.
  Proof.
    intros [p ab n]; unfold ptree; cbn [pos_path pos_above pos_here snd]; rewrite HT, pk_T; reflexivity.
  Qed.

  Lemma pk_in p ab l q : forall j, In q (pk p ab j l) -> exists i c, q = mkPos (p ++ [i]) ab c /\ In (Some c) l.
  Proof.
    induction l as [|[c|] l IH]; intros j H; cbn in H; [destruct H| |].
    - destruct H as [<-|H]; [exists j, c; cbn; auto|].
      destruct (IH _ H) as (i & c' & -> & Hc); exists i, c'; cbn; auto.
    - destruct (IH _ H) as (i & c' & -> & Hc); exists i, c'; cbn; auto.
  Qed.

  Lemma pkids_A q c : In c (pkids q) -> panc c = pval c :: panc q.
  Proof.
    intros H; destruct (pk_in _ _ _ _ _ H) as (i & n & -> & _); unfold panc, pval, ancestors_at.
    cbn [pos_above pos_here]; rewrite (map_app _ _ [n]), rev_app_distr; reflexivity.
  Qed.
  Lemma pkids_P q c : In c (pkids q) -> ppath c = pseg c :: ppath q.
  Proof.
    intros H; destruct (pk_in _ _ _ _ _ H) as (i & n & -> & _); unfold ppath, pseg.
    cbn [pos_path]; rewrite map_app, rev_app_distr, last_last; reflexivity.
  Qed.
  Lemma pkids_ok (ok : Nd -> Prop) : small_law slots ok ->
    forall q c, ok (pos_here q) -> In c (pkids q) -> ok (pos_here c).
  Proof.
    intros Hok q c Hq H; destruct (pk_in _ _ _ _ _ H) as (i & n & -> & Hn).
    destruct (Hok _ Hq) as [_ Hk]; apply Hk, Hn.
  Qed.
End PosInst.

(** ** Breadth-first with context *)
Section BfsCtx.
  Context {Nd V C : Type} (gv : Nd -> V * C) (into_iter : C -> list (option Nd)).
  Local Notation value := (nval gv).
  Local Notation slots := (fun n => into_iter (nkids gv n)).
  Context (T : list nat -> list Nd -> Nd -> tree (pos Nd)) (ok : Nd -> Prop) (P0 : list nat) (n0 : Nd).
  Hypothesis HT : slot_law slots T.
  Hypothesis Hok : small_law slots ok.
  Hypothesis Hn0 : ok n0.

  Local Notation kids := (pkids gv into_iter).
  Local Notation sl := (pslots gv into_iter).
  Local Notation tq := (ptree T).
  Local Notation A := (panc gv).
  Let r : pos Nd := mkPos P0 [] n0.
  Local Notation at_par := (at_parent kids (pval gv) pseg tq r).
  Local Notation pend := (pending kids).

  Lemma A_r : A r = [pval gv r].
  Proof. reflexivity. Qed.

  Lemma skip_spec q : forall l j, (N.of_nat (j + length l) <= usize_max)%N ->
    (pbelow q j l = [] /\ exists cnt, bfsc_skip (Nd:=Nd) l (N.of_nat j) = Ok (None, [], cnt)) \/
    exists c i l', bfsc_skip l (N.of_nat j) = Ok (Some (pos_here c), l', N.of_nat i) /\
      checked_succ (N.of_nat i) = Ok (N.of_nat (S i)) /\
      i + S (length l') = j + length l /\ ppath c = N.of_nat i :: ppath q /\
      pbelow q j l = c :: pbelow q (S i) l'.
  Proof.
    unfold pbelow; induction l as [|[c|] l IH]; intros j Hb; cbn [length] in Hb.
    - left; split; [reflexivity|eexists; reflexivity].
    - right; exists (mkPos (pos_path q ++ [j]) (pos_above q ++ [pos_here q]) c), j, l; cbn; repeat split.
      + rewrite checked_succ_lt by lia; f_equal; lia.
      + unfold ppath; cbn [pos_path]; rewrite map_app, rev_app_distr; reflexivity.
    - cbn [bfsc_skip]; rewrite checked_succ_lt by lia; cbn [bindR].
      replace (N.of_nat j + 1)%N with (N.of_nat (S j)) by lia.
      destruct (IH (S j) ltac:(lia)) as [(E & cnt & Es)|(c & i & l' & Es & H1 & H2 & H3 & E)].
      + left; split; [exact E|eauto].
      + right; exists c, i, l'; repeat split; auto; cbn; lia.
  Qed.

  Definition mk anc path (ul : list (cnode V)) queue (ch : option C) cnt : bfsc V (option Nd) C :=
    mkBfsc false (snd (split ul)) (fst (split ul)) queue path anc ch cnt.

  (** [c] has just been yielded; [ns] is what remains. *)
  Definition yielded (s : bfsc V (option Nd) C) (c : pos Nd) (ns : list (pos Nd)) : Prop :=
    exists D m done todo rest ul nxt fs j,
      at_par D m done (c :: todo) rest ul nxt /\ pbelow m j fs = todo /\ (N.of_nat (j + length fs) <= usize_max)%N /\
      s = mk (A c) (ppath c) ul (fs :: map sl rest ++ map sl nxt) (Some (nkids gv (pos_here c))) (N.of_nat j) /\
      bfs_rem tq (pend todo rest (nxt ++ [c])) ns.

  Lemma ok_slots q : ok (pos_here q) -> (N.of_nat (0 + length (sl q)) <= usize_max)%N.
  Proof. intros H; destruct (Hok _ H) as [H1 _]; exact H1. Qed.

  Lemma body_eq f s anc path (ul : list (cnode V)) :
    cmaybe_pop (bc_anc s, bc_path s, bc_cache s, bc_stack s) = Ok (st anc path ul) ->
    bfscb_body gv f s =
    match bc_queue s with
    | [] => Panic
    | front :: queue =>
        '(found, iter, counter) <- bfsc_skip front (bc_counter s) ;;
        match found with
        | Some nd =>
            counter' <- checked_succ counter ;;
            Ok (inr (mkBfsc (bc_is_root s) (snd (split ul)) (fst (split ul)) (iter :: queue) (counter :: path)
                            (value nd :: anc) (Some (nkids gv nd)) counter'))
        | None =>
            '(anc, path, cache, stack) <- cto_next_parent f (st anc path ul) ;;
            match queue with
            | [] => Ok (inr (mkBfsc (bc_is_root s) cache stack [] path [] (bc_children s) 0))
            | _ => Ok (inl (mkBfsc (bc_is_root s) cache stack queue path anc (bc_children s) 0))
            end
        end
    end.
  Proof.
    intros H; unfold bfscb_body; rewrite H, !st_eq; cbn [bindR].
    destruct (bc_queue s) as [|front queue]; [reflexivity|].
    destruct (bfsc_skip front (bc_counter s)) as [[[[nd|] iter] counter]| | |]; cbn [bindR]; try reflexivity.
    destruct (checked_succ counter); cbn [bindR]; try reflexivity.
    rewrite (gv_eq gv nd); reflexivity.
  Qed.

  Lemma ctx_loop : forall k D m done todo rest ul nxt fs j ch ns,
    length (rest ++ nxt) <= k ->
    at_par D m done todo rest ul nxt -> pbelow m j fs = todo -> (N.of_nat (j + length fs) <= usize_max)%N ->
    bfs_rem tq (pend todo rest nxt) ns ->
    exists s', (fun f => loop (bfscb_body gv) f (mk (A m) (ppath m) ul (fs :: map sl rest ++ map sl nxt) ch (N.of_nat j))) ⇓ Ok s' /\
      ((ns = [] /\ bc_anc s' = [] /\ bc_is_root s' = false /\ bc_cache s' = cn_default /\ bc_stack s' = []) \/ exists c ns', ns = c :: ns' /\ yielded s' c ns').
  Proof.
    induction k as [k IH] using lt_wf_ind; intros D m done todo rest ul nxt fs j ch ns Hk Hat Htodo Hb Hrem.
    assert (Hpop : cmaybe_pop (A m, ppath m, snd (split ul), fst (split ul)) = Ok (st (A m) (ppath m) ul))
      by (rewrite <- st_eq; eapply maybe_pop_at; [apply (pkids_A gv into_iter)|apply A_r|exact Hat]).
    assert (Hbody := fun f => body_eq f (mk (A m) (ppath m) ul (fs :: map sl rest ++ map sl nxt) ch (N.of_nat j)) _ _ _ Hpop).
    cbn [mk bc_queue bc_counter bc_is_root bc_children] in Hbody.
    destruct (skip_spec m fs j Hb) as [(E & cnt & Es)|(c & i & l' & Es & Hcs & Hlen & Hpath & E)].
    - rewrite Htodo in E; subst todo; rewrite E in *.
      destruct (next_parent' kids (pval gv) pseg A ppath tq (pnode gv into_iter T HT) (pkids_A gv into_iter) (pkids_P gv into_iter) r A_r
                  _ _ _ _ _ _ Hat) as (s1 & Hc & [[Hnil ->]|(D' & m' & rest' & ul' & nxt' & -> & Hat' & Eq)]).
      + apply app_eq_nil in Hnil as [-> ->].
        eexists; split.
        * apply loop_done; eapply conv_ext; [intros f; rewrite Hbody, Es; cbn [bindR map app]; reflexivity|].
          eapply conv_bind; [exact Hc|now_conv].
        * left; split; [|auto].
          apply bfs_rem_nil in Hrem; exact Hrem.
      + rewrite <- map_app, Eq in *; cbn [map] in *; rewrite map_app in *.
        destruct (IH (length (rest' ++ nxt')) ltac:(cbn [length] in Hk; lia) D' m' [] (kids m') rest' ul' nxt' (sl m') 0 ch ns
          ltac:(lia) Hat' eq_refl) as (s' & Hc' & Hres).
        * apply ok_slots.
          pose proof (at_parent_ok kids (pval gv) pseg tq (pnode gv into_iter T HT) r (fun q => ok (pos_here q)) Hn0
            (pkids_ok gv into_iter ok Hok) _ _ _ _ _ _ _ Hat') as [Hm' _]; exact Hm'.
        * unfold pending in *; rewrite <- flat_map_app; cbn [app] in Hrem; rewrite <- flat_map_app, Eq in Hrem; exact Hrem.
        * exists s'; split; [|exact Hres].
          eapply loop_step; [|exact Hc'].
          eapply conv_ext; [intros f; rewrite Hbody, Es; cbn [bindR]; reflexivity|].
          eapply conv_bind; [exact Hc|]; rewrite st_eq; now_conv.
    - rewrite Htodo in E; subst todo; rewrite E in *.
      assert (Hin : In c (kids m)) by (destruct Hat as (_ & -> & _); apply in_app_iff; right; left; reflexivity).
      change (pend (c :: pbelow m (S i) l') rest nxt) with (c :: pend (pbelow m (S i) l') rest nxt) in Hrem.
      apply (bfs_rem_step _ _ (pnode gv into_iter T HT)) in Hrem as (ns' & -> & Hrem).
      eexists; split.
      + apply loop_done, conv_eq; intros f; rewrite Hbody, Es; cbn [bindR]; rewrite Hcs; cbn [bindR]; reflexivity.
      + right; exists c, ns'; split; [reflexivity|].
        exists D, m, done, (pbelow m (S i) l'), rest, ul, nxt, l', (S i); repeat split; try apply Hat.
        * lia.
        * unfold mk; rewrite Hpath, (pkids_A gv into_iter _ _ Hin); reflexivity.
        * change (nkids (fun q : pos Nd => (pval gv q, kids q)) c) with (kids c) in Hrem.
          unfold pending in *; rewrite flat_map_app; cbn [flat_map]; rewrite app_nil_r, !app_assoc in *; exact Hrem.
  Qed.

  (** [prev]: the position yielded last. *)
  Definition bfscb_P (prev : option (pos Nd)) (s : bfsc V (option Nd) C) (ns : list (pos Nd)) : Prop :=
     prev = None /\ s = bfsc_new (value n0) (nkids gv n0) (map N.of_nat P0) /\ bfs_rem tq [r] ns \/
     prev = Some r /\ s = mk (A r) (ppath r) [CNode None (pseg r) []] [] (Some (nkids gv n0)) 0 /\ bfs_rem tq (kids r) ns \/
     (exists c, prev = Some c /\ yielded s c ns) \/
     prev = None /\ bc_is_root s = false /\ bc_anc s = [] /\ ns = [] /\ bc_cache s = cn_default /\ bc_stack s = [].
  Definition bfscb_R (s : bfsc V (option Nd) C) (l : list (tree_context V C)) : Prop :=
    exists prev ns, l = map (context_at gv) ns /\ bfscb_P prev s ns.

  Lemma get_at c ul queue cnt :
    bfsc_get (mk (A c) (ppath c) ul queue (Some (nkids gv (pos_here c))) cnt) = Some (context_at gv c).
  Proof.
    unfold bfsc_get, mk, context_at; cbn [bc_anc bc_path bc_children]; unfold ppath.
    assert (Ha : rev (A c) = map value (pos_above c ++ [pos_here c])) by (unfold panc; apply rev_involutive).
    rewrite <- Ha, rev_involutive.
    destruct (A c) as [|a l]; [|reflexivity].
    apply (f_equal (@length _)) in Ha; rewrite map_length, app_length in Ha; cbn in Ha; lia.
  Qed.

  Lemma bfscb_go s s1 D m done todo rest ul nxt fs j ns :
    bc_is_root s = false -> (exists a l, bc_anc s = a :: l) -> (exists ch, bc_children s = Some ch /\
      s1 = mkBfsc false (bc_cache s) (bc_stack s) (bc_queue s ++ [into_iter ch]) (bc_path s) (bc_anc s) None (bc_counter s)) ->
    (forall f, bfscb_body gv f s1 = bfscb_body gv f (mk (A m) (ppath m) ul (fs :: map sl rest ++ map sl nxt) None (N.of_nat j))) ->
    at_par D m done todo rest ul nxt -> pbelow m j fs = todo -> (N.of_nat (j + length fs) <= usize_max)%N ->
    bfs_rem tq (pend todo rest nxt) ns ->
    exists s', (fun f => bfscb_next gv into_iter f s) ⇓ Ok (hd_error (map (context_at gv) ns), s') /\
               bfscb_P (hd_error ns) s' (tl ns).
  Proof.
    intros Hroot (a & l & Ha) (ch & Hch & Es1) Heq Hat Htodo Hb Hrem.
    destruct (ctx_loop _ _ _ _ _ _ _ _ _ _ None ns (le_n _) Hat Htodo Hb Hrem) as (s' & Hc & Hres).
    exists s'; split.
    - assert (Hc' : (fun f => loop (bfscb_body gv) f s1) ⇓ Ok s').
      { destruct Hc as [F HF]; exists F; intros [|f] Hf; [rewrite <- (HF 0 Hf); reflexivity|].
        rewrite <- (HF (S f) Hf); cbn [loop]; rewrite Heq; reflexivity. }
      eapply conv_ext with (m' := fun f => bindR (loop (bfscb_body gv) f s1) (fun s' => Ok (bfsc_get s', s'))).
      + intros f; unfold bfscb_next, bfscb_advance, bfsc_advance_with; rewrite Hroot, Ha, Hch; cbn [unwrap bindR].
        subst s1; rewrite Ha; reflexivity.
      + eapply conv_bind; [exact Hc'|].
        destruct Hres as [(-> & Hanc & _ & _)|(c & ns' & -> & Hy)].
        * apply conv_eq; intros f; unfold bfsc_get; rewrite Hanc; reflexivity.
        * destruct Hy as (D' & m' & done' & todo' & rest' & ul' & nxt' & fs' & j' & _ & _ & _ & -> & _).
          apply conv_eq; intros f; rewrite get_at; reflexivity.
    - destruct Hres as [(-> & Hanc & Hr & Hce)|(c & ns' & -> & Hy)].
      + right; right; right; auto.
      + right; right; left; exists c; auto.
  Qed.

  Lemma bfscb_stepP prev s ns : bfscb_P prev s ns ->
    exists s', (fun f => bfscb_next gv into_iter f s) ⇓ Ok (hd_error (map (context_at gv) ns), s') /\ bfscb_P (hd_error ns) s' (tl ns).
  Proof.
    intros [(-> & -> & Hrem)|[(-> & -> & Hrem)|[(c & -> & Hy)|(-> & Hr & Ha & -> & Hce)]]].
    - apply (bfs_rem_step _ _ (pnode gv into_iter T HT)) in Hrem as (ns' & -> & Hrem).
      exists (mk (A r) (ppath r) [CNode None (pseg r) []] [] (Some (nkids gv n0)) 0); split.
      + apply conv_eq; intros f; cbn [map hd_error]; rewrite <- (get_at r [CNode None (pseg r) []] [] 0); reflexivity.
      + right; left; split; [reflexivity|]; split; [reflexivity|exact Hrem].
    - pose proof (at_root kids (pval gv) pseg tq (pnode gv into_iter T HT) r) as Hat.
      eapply (bfscb_go _ _ 0 r [] (kids r) [] _ [] (sl r) 0); [reflexivity| |eexists; split; reflexivity| |exact Hat|reflexivity| |].
      + cbn [bc_anc mk]; rewrite A_r; eauto.
      + intros f; reflexivity.
      + apply ok_slots; exact Hn0.
      + unfold pending; cbn [flat_map app]; rewrite app_nil_r; exact Hrem.
    - destruct Hy as (D & m & done & todo & rest & ul & nxt & fs & j & Hat & Htodo & Hb & -> & Hrem).
      destruct (maybe_pop_after kids (pval gv) pseg A ppath tq (pkids_A gv into_iter) (pkids_P gv into_iter) r A_r _ _ _ _ _ _ _ _ Hat)
        as (ul' & Hpop & Hat').
      eapply (bfscb_go _ _ D m (done ++ [c]) todo rest ul' (nxt ++ [c]) fs j);
        [reflexivity| |eexists; split; reflexivity| |exact Hat'|exact Htodo|exact Hb|exact Hrem].
      + cbn [bc_anc mk].
        assert (Hin : In c (kids m)) by (destruct Hat as (_ & -> & _); apply in_app_iff; right; left; reflexivity).
        rewrite (pkids_A gv into_iter _ _ Hin); eauto.
      + intros f.
        rewrite (body_eq f _ (A m) (ppath m) ul') by (cbn [bc_anc bc_path bc_cache bc_stack mk]; rewrite <- st_eq; exact Hpop).
        rewrite (body_eq f (mk (A m) _ _ _ _ _) (A m) (ppath m) ul').
        2:{ cbn [bc_anc bc_path bc_cache bc_stack mk]; rewrite <- st_eq; eapply maybe_pop_at; [apply (pkids_A gv into_iter)|apply A_r|exact Hat']. }
        cbn [bc_queue bc_counter bc_is_root bc_children mk].
        rewrite map_app; cbn [map app]; rewrite <- app_assoc; reflexivity.
    - exists s; split.
      + apply conv_eq; intros f; unfold bfscb_next, bfscb_advance, bfsc_advance_with; rewrite Hr, Ha.
        cbn; unfold bfsc_get; rewrite Ha; reflexivity.
      + right; right; right; auto.
  Qed.

  Lemma bfscb_P_new : bfscb_P None (bfsc_new (value n0) (nkids gv n0) (map N.of_nat P0)) (bfs (T P0 [] n0)).
  Proof. left; split; [reflexivity|]; split; [reflexivity|]; exact (bfs_rem_root _ (ptree T) (pnode gv into_iter T HT) r). Qed.

  Lemma bfscb_step : step_inv (bfscb_next gv into_iter) bfscb_R.
  Proof.
    intros s l (prev & ns & -> & H); destruct (bfscb_stepP _ _ _ H) as (s' & Hc & H'); exists s'; split; [exact Hc|].
    exists (hd_error ns), (tl ns); split; [destruct ns; reflexivity|exact H'].
  Qed.

  Lemma bfscb_yields :
    yields (bfscb_next gv into_iter) (bfsc_new (value n0) (nkids gv n0) (map N.of_nat P0)) (map (context_at gv) (bfs (T P0 [] n0))).
  Proof.
    apply (step_inv_yields _ _ bfscb_step); exists None, (bfs (T P0 [] n0)); split; [reflexivity|exact bfscb_P_new].
  Qed.
End BfsCtx.

(** ** n-ary: the slot machine without empty slots *)
Section BfsNary.
  Context {Nd V : Type} (gvc : Nd -> V * list Nd).

  Definition slot_bfsc (s : bfsc V Nd (list Nd)) : bfsc V (option Nd) (list Nd) :=
    mkBfsc (bc_is_root s) (bc_cache s) (bc_stack s) (map (map Some) (bc_queue s)) (bc_path s) (bc_anc s) (bc_children s) (bc_counter s).

  Lemma bfsc_body_sim f s :
    bfscb_body gvc f (slot_bfsc s) = Rmap (sum_map slot_bfsc slot_bfsc) (bfsc_body gvc f s).
  Proof.
    destruct s as [rt cache stack queue path anc ch cnt]; unfold slot_bfsc, bfscb_body, bfsc_body.
    cbn [bc_is_root bc_cache bc_stack bc_queue bc_path bc_anc bc_children bc_counter].
    destruct (cmaybe_pop (anc, path, cache, stack)) as [[[[anc1 path1] cache1] stack1]| | |]; cbn [bindR Rmap]; try reflexivity.
    destruct queue as [|[|nd iter] queue]; cbn [map bfsc_skip bindR Rmap]; [reflexivity| |].
    - destruct (cto_next_parent f (anc1, path1, cache1, stack1)) as [[[[anc2 path2] cache2] stack2]| | |]; cbn [bindR Rmap]; try reflexivity.
      destruct queue; reflexivity.
    - destruct (checked_succ cnt); cbn [bindR Rmap]; try reflexivity.
      destruct (gvc nd); reflexivity.
  Qed.

  Lemma bfsc_next_sim f s :
    bfscb_next gvc (map Some) f (slot_bfsc s) = Rmap (fun '(o, s') => (o, slot_bfsc s')) (bfsc_next gvc f s).
  Proof.
    unfold bfscb_next, bfsc_next, bfscb_advance, bfsc_advance, bfsc_advance_with.
    destruct s as [rt cache stack queue path anc ch cnt].
    destruct rt; [reflexivity|].
    destruct anc as [|a anc]; [reflexivity|].
    destruct ch as [ch|]; [|reflexivity].
    pose proof (loop_sim slot_bfsc slot_bfsc _ _ bfsc_body_sim f
      (mkBfsc false cache stack (queue ++ [ch]) path (a :: anc) None cnt)) as H.
    unfold slot_bfsc at 1 in H; cbn [bc_is_root bc_cache bc_stack bc_queue bc_path bc_anc bc_children bc_counter] in H.
    rewrite map_app in H; cbn [map] in H.
    unfold slot_bfsc at 1 2 3 4 5 6 7 8 9 10.
    cbn [bc_is_root bc_cache bc_stack bc_queue bc_path bc_anc bc_children bc_counter unwrap bindR].
    match type of H with ?x = _ => match goal with |- bindR ?y _ = _ => change y with x end end; rewrite H.
    destruct (loop (bfsc_body gvc) f _); reflexivity.
  Qed.

  Lemma slot_bfsc_inj x y : slot_bfsc x = slot_bfsc y -> x = y.
  Proof.
    destruct x, y; unfold slot_bfsc; cbn; intros E; injection E as -> -> -> E -> -> -> ->.
    apply map_map_Some_inj in E; subst; reflexivity.
  Qed.

  Lemma bfsc_yields nt P0 n : node_tree gvc nt -> small_nodes gvc (nt n) ->
    yields (bfsc_next gvc) (bfsc_new (nval gvc n) (nkids gvc n) (map N.of_nat P0)) (map (context_at gvc) (bfs (annotate P0 [] (nt n)))).
  Proof.
    intros Hnt Hsm.
    apply (yields_sim slot_bfsc _ _ slot_bfsc_inj bfsc_next_sim).
    exact (bfscb_yields gvc (map Some) _ _ P0 n (slot_law_nary gvc nt Hnt) (small_law_nary gvc nt Hnt) Hsm).
  Qed.
End BfsNary.
