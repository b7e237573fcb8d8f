(** * The values inside the breadth-first context iterators, over whole runs. *)
From Coq Require Import Permutation.
From Verif Require Import Prelim PrelimFacts Spec SpecFacts ModelNode ModelPre ModelBfs ModelDrops ModelOwn NodeFacts Slots ProofsPlain ProofsPre BfsCore ProofsBfs FuelMono PermTac ProofsDrops.

Section More.
  Context {Nd V I C : Type} (gv : Nd -> V * C) (into_iter : C -> list I) (fetch : list I -> N -> Res (option Nd * list I * N)).

  Lemma more_dadvance_dfs (x : dlog V * cdfs_st (V:=V)) : more (fun f => dadvance_dfs f x).
  Proof. destruct x as [g [[[anc path] cache] stack]]; unfold dadvance_dfs; apply more_loop; intros s f h _ _; reflexivity. Qed.
  Lemma more_dto_next_parent (x : dlog V * cdfs_st (V:=V)) : more (fun f => dto_next_parent f x).
  Proof.
    destruct x as [g [[[anc path] cache] stack]]; unfold dto_next_parent.
    destruct (match top_children stack cache with [] => _ | _ :: _ => _ end) as [[[[g' anc'] path'] cache'] stack'].
    apply more_dadvance_dfs.
  Qed.
  Lemma more_dbfs_body x : more (fun f => dbfs_body gv fetch f x).
  Proof.
    destruct x as [g s]; unfold dbfs_body.
    destruct (cmaybe_pop _) as [[[[anc path] cache] stack]| | |]; cbn [bindR]; try apply more_const.
    destruct (bc_queue s) as [|front queue]; [apply more_const|].
    destruct (fetch front (bc_counter s)) as [[[[nd|] iter] cnt]| | |]; cbn [bindR]; try apply more_const.
    apply (more_bind (fun f => dto_next_parent f _) (fun _ x => let '(g, (anc, path, cache, stack)) := x in
       match queue with
       | [] => Ok (inr (log_drop anc g, mkBfsc (bc_is_root s) cache stack [] path [] (bc_children s) 0%N))
       | _ => Ok (inl (g, mkBfsc (bc_is_root s) cache stack queue path anc (bc_children s) 0%N))
       end)).
    - apply more_dto_next_parent.
    - intros [? [[[? ?] ?] ?]]; apply more_const.
  Qed.
  Lemma more_dbfs_next x : more (fun f => dbfs_next gv into_iter fetch f x).
  Proof.
    unfold dbfs_next; apply (more_bind (fun f => dbfs_advance gv into_iter fetch f x) (fun _ y => let '(g, s) := y in Ok (bfsc_get s, (g, s)))).
    2:{ intros [g s]; apply more_const. }
    destruct x as [g s]; unfold dbfs_advance.
    destruct (bc_is_root s); [apply more_const|]; destruct (bc_anc s); [apply more_const|].
    destruct (bc_children s) as [c|]; cbn [unwrap bindR]; [|apply more_const].
    apply more_loop, more_dbfs_body.
  Qed.
End More.

Section Run.
  Context {Nd V C : Type} (gv : Nd -> V * C) (into_iter : C -> list (option Nd)).
  Local Notation value := (nval gv).
  Local Notation slots := (fun n => into_iter (nkids gv n)).
  Context (T : list nat -> list Nd -> Nd -> tree (pos Nd)) (ok : Nd -> Prop) (P0 : list nat) (n0 : Nd).
  Hypothesis HT : slot_law slots T.
  Hypothesis Hok : small_law slots ok.
  Hypothesis Hn0 : ok n0.

  Local Notation kids := (pkids gv into_iter).
  Local Notation sl := (pslots gv into_iter).
  Local Notation tq := (ptree T).
  Local Notation A := (panc gv).
  Local Notation r := (mkPos P0 [] n0).
  Local Notation at_par := (at_parent kids (pval gv) pseg tq r).
  Local Notation mk := (mk (Nd:=Nd) (V:=V) (C:=C)).
  Local Notation dbody := (dbfs_body gv (bfsc_skip (Nd:=Nd))).
  Local Notation dnext := (dbfs_next gv into_iter (bfsc_skip (Nd:=Nd))).
  Local Notation L := (bfs (T P0 [] n0)).
  Local Notation stP := (bfscb_P gv into_iter T P0 n0).

  (** One call of [next()]. *)
  Lemma drops_go f g s s1 D m done todo rest ul nxt fs j o s' :
    bc_is_root s = false -> (exists a l, bc_anc s = a :: l) -> (exists ch, bc_children s = Some ch /\
      s1 = mkBfsc false (bc_cache s) (bc_stack s) (bc_queue s ++ [into_iter ch]) (bc_path s) (bc_anc s) None (bc_counter s)) ->
    (forall f, bfscb_body gv f s1 = bfscb_body gv f (mk (A m) (ppath m) ul (fs :: map sl rest ++ map sl nxt) None (N.of_nat j))) ->
    (forall f, dbody f (g, s1) = dbody f (g, mk (A m) (ppath m) ul (fs :: map sl rest ++ map sl nxt) None (N.of_nat j))) ->
    Permutation (bvals s) (svals (st (A m) (ppath m) ul)) ->
    at_par D m done todo rest ul nxt -> pbelow m j fs = todo -> (N.of_nat (j + length fs) <= usize_max)%N ->
    bfscb_next gv into_iter f s = Ok (o, s') ->
    exists g', dnext f (g, s) = Ok (o, (g', s')) /\ leaked g' = leaked g /\
      Permutation (gvals g' ++ bvals s') (gvals g ++ bvals s ++ opt_value (hd_error (bc_anc s'))).
  Proof.
    unfold bfscb_next, bfscb_advance, dbfs_next, dbfs_advance, bfsc_advance_with.
    intros Hroot (a & l & Ha) (ch & Hch & Es1) Heq Heqd Hv Hat Htodo Hb.
    rewrite Hroot, Ha, Hch; cbn [unwrap bindR]; rewrite <- Ha, <- Es1.
    destruct (loop (bfscb_body gv) f s1) as [s2| | |] eqn:El; cbn [bindR]; try discriminate; intros [= <- <-].
    destruct f as [|f]; [discriminate|].
    assert (El' : loop (bfscb_body gv) (S f) (mk (A m) (ppath m) ul (fs :: map sl rest ++ map sl nxt) None (N.of_nat j)) = Ok s2)
      by (rewrite <- El; cbn [loop]; rewrite Heq; reflexivity).
    destruct (drops_loop gv into_iter T ok P0 n0 HT Hok Hn0 (S f) g _ _ _ _ _ _ _ _ _ _ _ Hat Htodo Hb El') as (g' & Eg & Hl & Hp).
    exists g'; split; [|split; [exact Hl|perm with Hp, Hv]].
    replace (loop dbody (S f) (g, s1)) with (loop dbody (S f) (g, mk (A m) (ppath m) ul (fs :: map sl rest ++ map sl nxt) None (N.of_nat j)))
      by (cbn [loop]; rewrite Heqd; reflexivity).
    rewrite Eg; reflexivity.
  Qed.

  Lemma drops_next f g prev s ns o s' : stP prev s ns -> bfscb_next gv into_iter f s = Ok (o, s') ->
    exists g', dnext f (g, s) = Ok (o, (g', s')) /\ leaked g' = leaked g /\
      Permutation (gvals g' ++ bvals s') (gvals g ++ bvals s ++ if bc_is_root s then [] else opt_value (hd_error (bc_anc s'))).
  Proof.
    intros [(-> & -> & _)|[(-> & -> & _)|[(c & -> & Hy)|(-> & Hr & Ha & -> & Hce)]]].
    - unfold bfscb_next, bfscb_advance, dbfs_next, dbfs_advance, bfsc_advance_with.
      cbn [bc_is_root bfsc_new bindR]; intros [= <- <-]; exists g; split; [reflexivity|]; split; [reflexivity|].
      unfold bvals; cbn [bc_anc bc_path bc_cache bc_stack bfsc_new]; perm.
    - pose proof (at_root kids (pval gv) pseg tq (pnode gv into_iter T HT) r) as Hat.
      eapply (drops_go _ _ _ _ 0 r [] (kids r) [] _ [] (sl r) 0); [reflexivity| |eexists; split; reflexivity| | | |exact Hat|reflexivity|].
      + cbn [bc_anc ProofsBfs.mk]; rewrite (A_r gv P0 n0); eauto.
      + intros f'; reflexivity.
      + intros f'; reflexivity.
      + apply Permutation_refl.
      + apply (ok_slots gv into_iter ok Hok); exact Hn0.
    - destruct Hy as (D & m & done & todo & rest & ul & nxt & fs & j & Hat & Htodo & Hb & -> & Hrem).
      destruct (maybe_pop_after kids (pval gv) pseg A ppath tq (pkids_A gv into_iter) (pkids_P gv into_iter) r (A_r gv P0 n0) _ _ _ _ _ _ _ _ Hat)
        as (ul' & Hpop & Hat').
      assert (Hpop' : cmaybe_pop (A m, ppath m, snd (split ul'), fst (split ul')) = Ok (st (A m) (ppath m) ul'))
        by (rewrite <- st_eq; eapply maybe_pop_at; [apply (pkids_A gv into_iter)|apply (A_r gv P0 n0)|exact Hat']).
      rewrite st_eq in Hpop.
      eapply (drops_go _ _ _ _ D m (done ++ [c]) todo rest ul' (nxt ++ [c]) fs j);
        [reflexivity| |eexists; split; reflexivity| | | |exact Hat'|exact Htodo|exact Hb].
      + cbn [bc_anc ProofsBfs.mk].
        assert (Hin : In c (kids m)) by (destruct Hat as (_ & -> & _); apply in_app_iff; right; left; reflexivity).
        rewrite (pkids_A gv into_iter _ _ Hin); eauto.
      + intros f'.
        rewrite (body_eq gv f' _ (A m) (ppath m) ul') by (cbn [bc_anc bc_path bc_cache bc_stack ProofsBfs.mk]; exact Hpop).
        rewrite (body_eq gv f' (mk (A m) _ _ _ _ _) (A m) (ppath m) ul' Hpop').
        cbn [bc_queue bc_counter bc_is_root bc_children ProofsBfs.mk].
        rewrite map_app; cbn [map app]; rewrite <- app_assoc; reflexivity.
      + intros f'.
        rewrite (dbody_eq gv f' _ _ (A m) (ppath m) ul') by (cbn [bc_anc bc_path bc_cache bc_stack ProofsBfs.mk]; exact Hpop).
        rewrite (dbody_eq gv f' _ (mk (A m) _ _ _ _ _) (A m) (ppath m) ul' Hpop').
        cbn [bc_queue bc_counter bc_is_root bc_children ProofsBfs.mk].
        rewrite map_app; cbn [map app]; rewrite <- app_assoc; reflexivity.
      + apply Permutation_sym; exact (proj2 (maybe_pop_log _ _ Hpop)).
    - unfold bfscb_next, bfscb_advance, dbfs_next, dbfs_advance, bfsc_advance_with; rewrite Hr, Ha; cbn [bindR]; intros [= <- <-].
      exists g; split; [reflexivity|]; split; [reflexivity|]; rewrite Ha; cbn [hd_error opt_value]; perm.
  Qed.

  (** The state after some calls: [taken] were yielded, [ns] are still to come. *)
  Local Notation vals := (map (fun q : pos Nd => value (pos_here q))).
  Definition drops_R (taken ns : list (pos Nd)) (prev : option (pos Nd)) (x : dlog V * bfsc V (option Nd) C) : Prop :=
    L = taken ++ ns /\ stP prev (snd x) ns /\ leaked (fst x) = [] /\
    Permutation (gvals (fst x) ++ bvals (snd x)) (vals (match taken with [] => [r] | _ => taken end)) /\
    (bc_is_root (snd x) = match taken with [] => true | _ => false end).

  Lemma get_anc (s : bfsc V (option Nd) C) c : bfsc_get s = Some (context_at gv c) -> opt_value (hd_error (bc_anc s)) = [value (pos_here c)].
  Proof.
    unfold bfsc_get; destruct (bc_anc s) as [|a l] eqn:Ea; [discriminate|]; intros [= _ E _].
    apply (f_equal (@rev V)) in E; rewrite map_app, rev_app_distr in E; cbn [map rev app] in E.
    rewrite rev_app_distr, rev_involutive in E; injection E as -> _; reflexivity.
  Qed.
  Lemma get_none (s : bfsc V (option Nd) C) : bfsc_get s = None -> opt_value (hd_error (bc_anc s)) = [].
  Proof. unfold bfsc_get; destruct (bc_anc s) as [|a l] eqn:Ea; [reflexivity|discriminate]. Qed.

  Lemma next_get f s o s' : bfscb_next gv into_iter f s = Ok (o, s') -> o = bfsc_get s'.
  Proof.
    unfold bfscb_next; destruct (bfscb_advance gv into_iter f s); cbn [bindR]; try discriminate; intros [= <- <-]; reflexivity.
  Qed.

  Lemma L_root : exists l, L = r :: l.
  Proof.
    pose proof (bfs_rem_root _ tq (pnode gv into_iter T HT) r) as H.
    apply (bfs_rem_step _ _ (pnode gv into_iter T HT)) in H as (ns' & E & _); exists ns'; exact E.
  Qed.

  Lemma stP_root prev s ns : stP prev s ns -> bc_is_root s = true -> s = bfsc_new (value n0) (nkids gv n0) (map N.of_nat P0).
  Proof.
    intros [(-> & -> & _)|[(-> & -> & _)|[(c & -> & Hy)|(-> & Hr & _)]]]; [reflexivity| | |congruence].
    - discriminate.
    - destruct Hy as (D & m & done & todo & rest & ul & nxt & fs & j & Hat & Htodo & Hb & -> & Hrem); discriminate.
  Qed.

  Lemma drops_step taken ns prev x : drops_R taken ns prev x ->
    exists x', (fun f => dnext f x) ⇓ Ok (hd_error (map (context_at gv) ns), x') /\
      drops_R (taken ++ firstn 1 ns) (tl ns) (hd_error ns) x'.
  Proof.
    destruct x as [g s]; intros (HL & HP & Hl & Hp & Hr); cbn [fst snd] in *.
    destruct (bfscb_stepP gv into_iter T ok P0 n0 HT Hok Hn0 _ _ _ HP) as (s' & Hc & HP').
    pose proof Hc as [F HF]; specialize (HF F (le_n F)).
    destruct (drops_next F g _ _ _ _ _ HP HF) as (g' & Eg & Hl' & Hp').
    exists (g', s'); split; [exact (more_conv _ F _ (more_dbfs_next _ _ _ _) Eg ltac:(discriminate))|].
    apply next_get in HF.
    assert (Hroot : bc_is_root s' = false).
    { destruct HP' as [(E & -> & Hrem)|[(_ & -> & _)|[(c & _ & Hy)|(_ & Hr' & _)]]]; [|reflexivity| |exact Hr'].
      - destruct ns as [|c ns]; [|discriminate]; apply (bfs_rem_step _ _ (pnode gv into_iter T HT)) in Hrem as (ns' & E' & _); discriminate.
      - destruct Hy as (D & m & done & todo & rest & ul & nxt & fs & j & Hat & Htodo & Hb & -> & Hrem); reflexivity. }
    destruct L_root as (l & El).
    unfold drops_R; cbn [fst snd]; split; [|split; [exact HP'|]].
    { rewrite HL, <- app_assoc; destruct ns; reflexivity. }
    split; [congruence|].
    rewrite Hr in Hp'.
    destruct taken as [|t taken].
    - cbn [app] in HL; rewrite <- HL, El in *; cbn [firstn app map pos_here] in *; rewrite app_nil_r in Hp'; split; [exact (Permutation_trans Hp' Hp)|exact Hroot].
    - cbn [app]; split; [|exact Hroot]; destruct ns as [|c ns]; cbn [map hd_error firstn] in HF |- *.
      + rewrite (get_none _ (eq_sym HF)) in Hp'; rewrite app_nil_r; cbn [map] in *; perm with Hp, Hp'.
      + rewrite (get_anc _ _ (eq_sym HF)) in Hp'.
        change (t :: taken ++ [c]) with ((t :: taken) ++ [c]); rewrite map_app; cbn [map] in *; perm with Hp, Hp'.
  Qed.

  Lemma drops_calls k : forall taken ns prev x, drops_R taken ns prev x ->
    exists x', calls dnext k x ⇓ Ok (map (nth_error (map (context_at gv) ns)) (seq 0 k), x') /\
      drops_R (taken ++ firstn k ns) (skipn k ns) (match k with 0 => prev | S k' => nth_error ns k' end) x'.
  Proof.
    induction k as [|k IH]; intros taken ns prev x H.
    - exists x; split; [apply calls_0|]; rewrite app_nil_r; exact H.
    - destruct (drops_step _ _ _ _ H) as (x1 & H1 & HR1).
      destruct (IH _ _ _ _ HR1) as (x2 & H2 & HR2); exists x2; split.
      + cbn [seq map].
        replace (map (nth_error (map (context_at gv) ns)) (seq 1 k)) with (map (nth_error (map (context_at gv) (tl ns))) (seq 0 k)).
        * replace (nth_error (map (context_at gv) ns) 0) with (hd_error (map (context_at gv) ns)) by (destruct ns; reflexivity).
          eapply calls_S; eauto.
        * rewrite <- seq_shift, map_map; apply map_ext; intros i; destruct ns; [destruct i; reflexivity|reflexivity].
      + destruct ns as [|c ns]; cbn [tl firstn skipn hd_error] in *.
        * rewrite firstn_nil, skipn_nil in *; rewrite !app_nil_r in *.
          destruct k; [|destruct k]; exact HR2.
        * rewrite <- app_assoc in HR2; cbn [app] in HR2; destruct k; exact HR2.
  Qed.

  (** Values of the earlier siblings of the node yielded last are in the cache. *)
  Lemma sibling_cells D m done todo rest ul nxt : at_par D m done todo rest ul nxt ->
    exists other, Permutation (cn_values (snd (split ul)) ++ flat_map cn_values (fst (split ul))) (vals done ++ other).
  Proof.
    intros (Hs & _).
    destruct (spine_set kids (pval gv) pseg tq _ [] _ _ _ _ _ Hs) as (x & us & -> & Ex & _).
    assert (Hd : dvals (map Some (flat_map (cached kids (pval gv) pseg 0) done)) = vals done).
    { clear; induction done as [|d done IH]; [reflexivity|]; cbn in *; f_equal; exact IH. }
    assert (Hx : exists o, Permutation (cn_values x) (vals done ++ o)).
    { exists (opt_value (cn_value x)); rewrite cn_values_eq, Ex, Hd; perm. }
    destruct us as [|y us].
    - exists []; cbn [split fst snd flat_map]; rewrite (cn_values_eq (CNode _ _ _)); cbn [cn_value cn_children opt_value app]; rewrite Ex, Hd; perm.
    - destruct Hx as (o & Hx); rewrite split_cons; cbn [fst snd flat_map].
      exists (o ++ cn_values (snd (split (y :: us))) ++ flat_map cn_values (fst (split (y :: us)))); perm with Hx.
  Qed.

  Lemma pk_split p (ab : list Nd) l done c todo : forall j, pk p ab j l = done ++ c :: todo ->
    exists i, pos_path c = p ++ [j + i] /\ pos_above c = ab /\ map pos_here done = flat_map opt_value (firstn i l).
  Proof.
    revert done; induction l as [|[x|] l IH]; intros done j E; cbn [pk] in E.
    - destruct done; discriminate.
    - destruct done as [|d done]; injection E as <- E.
      + exists 0; rewrite Nat.add_0_r; auto.
      + destruct (IH _ _ E) as (i & H1 & H2 & H3); exists (S i); rewrite H1, H2; repeat split; [do 2 f_equal; lia|].
        cbn; rewrite H3; reflexivity.
    - destruct (IH _ _ E) as (i & H1 & H2 & H3); exists (S i); rewrite H1, H2; repeat split; [do 2 f_equal; lia|exact H3].
  Qed.

  Lemma drops_run k : exists g,
    use_and_drop dnext dbfs_drop k (dbfs_new gv n0 (map N.of_nat P0)) ⇓ Ok (map (nth_error (map (context_at gv) L)) (seq 0 k), g) /\
    Permutation (dropped g ++ leaked g) (vals (firstn (max 1 k) L)) /\
    (length L < k -> leaked g = []) /\
    (forall k' c above parent p i, k = S k' -> nth_error L k' = Some c -> pos_above c = above ++ [parent] -> pos_path c = p ++ [i] ->
       exists other, Permutation (leaked g) (map value (flat_map opt_value (firstn i (slots parent))) ++ other)).
  Proof.
    assert (H0 : drops_R [] L None (no_log, bfsc_new (value n0) (nkids gv n0) (map N.of_nat P0))).
    { unfold drops_R; cbn [fst snd app]; split; [reflexivity|]; split; [exact (bfscb_P_new gv into_iter T P0 n0 HT)|].
      split; [reflexivity|]; split; [apply Permutation_refl|reflexivity]. }
    destruct (drops_calls k _ _ _ _ H0) as ([g s] & Hc & HL & HP & Hl & Hp & Hr); cbn [fst snd app] in *.
    eexists; split; [|split; [|split]].
    - unfold use_and_drop, dbfs_new; rewrite (gv_eq gv n0).
      eapply conv_bind; [exact Hc|]; cbn [dbfs_drop bindR]; now_conv.
    - cbn [log_drop log_leak dropped leaked].
      unfold bvals, gvals in Hp; cbn [svals] in Hp.
      replace (firstn (max 1 k) L) with (match firstn k L with [] => [r] | _ => firstn k L end).
      + perm with Hp.
      + destruct L_root as (l & ->); destruct k as [|k]; [reflexivity|]; reflexivity.
    - intros Hlen; cbn [log_drop log_leak dropped leaked]; rewrite Hl, app_nil_r.
      destruct k as [|k]; [lia|].
      assert (Hn : nth_error L k = None) by (apply nth_error_None; lia); rewrite Hn in HP.
      destruct L_root as (l & El); rewrite El in Hr; cbn [firstn] in Hr.
      destruct HP as [(_ & -> & _)|[(E & _)|[(c & E & _)|(_ & _ & _ & _ & -> & ->)]]]; try discriminate; reflexivity.
    - intros k' c above parent p i -> Hn Hab Hpath; cbn [log_drop log_leak dropped leaked]; rewrite Hl, app_nil_r; rewrite Hn in HP.
      destruct HP as [(E & _)|[([= ->] & _)|[(c' & [= <-] & Hy)|(E & _)]]]; try discriminate.
      + destruct above; discriminate.
      + destruct Hy as (D & m & done & todo & rest & ul & nxt & fs & j & Hat & _ & _ & -> & _).
        cbn [bc_cache bc_stack ProofsBfs.mk].
        destruct (sibling_cells _ _ _ _ _ _ _ Hat) as (other & Ho); exists other.
        pose proof Hat as (_ & Hk & _); destruct (pk_split _ _ _ _ _ _ _ Hk) as (i' & H1 & H2 & H3).
        rewrite H2 in Hab; apply app_inj_tail in Hab as [_ <-]; rewrite H1 in Hpath; apply app_inj_tail in Hpath as [_ <-].
        cbn [Nat.add]; unfold pslots in H3; rewrite <- H3, map_map; exact Ho.
  Qed.
End Run.

(** ** n-ary trees: no empty slots *)
Section Nary.
  Context {Nd V : Type} (gvc : Nd -> V * list Nd).
  Local Notation lift := (fun x : dlog V * bfsc V Nd (list Nd) => (fst x, slot_bfsc (snd x))).

  Lemma dbody_sim f x : dbfs_body gvc (bfsc_skip (Nd:=Nd)) f (lift x) = Rmap (sum_map lift lift) (dbfs_body gvc fetch_nary f x).
  Proof.
    destruct x as [g [rt cache stack queue path anc ch cnt]]; unfold slot_bfsc, dbfs_body.
    cbn [fst snd bc_is_root bc_cache bc_stack bc_queue bc_path bc_anc bc_children bc_counter].
    destruct (cmaybe_pop (anc, path, cache, stack)) as [[[[anc1 path1] cache1] stack1]| | |]; cbn [bindR Rmap]; try reflexivity.
    destruct queue as [|[|nd iter] queue]; cbn [map bfsc_skip fetch_nary bindR Rmap]; [reflexivity| |].
    - destruct (dto_next_parent f (g, (anc1, path1, cache1, stack1))) as [[g2 [[[anc2 path2] cache2] stack2]]| | |]; cbn [bindR Rmap]; try reflexivity.
      destruct queue; reflexivity.
    - destruct (checked_succ cnt); cbn [bindR Rmap]; try reflexivity.
      destruct (gvc nd); reflexivity.
  Qed.

  Lemma dnext_sim f x :
    dbfs_next gvc (map Some) (bfsc_skip (Nd:=Nd)) f (lift x) =
    Rmap (fun '(o, x') => (o, lift x')) (dbfs_next gvc (fun c => c) fetch_nary f x).
  Proof.
    destruct x as [g s]; unfold dbfs_next, dbfs_advance.
    destruct s as [rt cache stack queue path anc ch cnt].
    destruct rt; [reflexivity|].
    destruct anc as [|a anc]; [reflexivity|].
    destruct ch as [ch|]; [|reflexivity].
    pose proof (loop_sim lift lift _ _ dbody_sim f
      (g, mkBfsc false cache stack (queue ++ [ch]) path (a :: anc) None cnt)) as H.
    cbn [fst snd] in H; unfold slot_bfsc at 1 in H; cbn [bc_is_root bc_cache bc_stack bc_queue bc_path bc_anc bc_children bc_counter] in H.
    rewrite map_app in H; cbn [map] in H.
    unfold slot_bfsc at 1; cbn [fst snd bc_is_root bc_cache bc_stack bc_queue bc_path bc_anc bc_children bc_counter unwrap bindR].
    match type of H with ?x = _ => match goal with |- bindR ?y _ = _ => change y with x end end; rewrite H.
    destruct (loop (dbfs_body gvc fetch_nary) f _) as [[g' s']| | |]; reflexivity.
  Qed.

  Lemma dcalls_sim f : forall k x,
    calls (dbfs_next gvc (map Some) (bfsc_skip (Nd:=Nd))) k (lift x) f =
    Rmap (fun '(os, x') => (os, lift x')) (calls (dbfs_next gvc (fun c => c) fetch_nary) k x f).
  Proof.
    induction k as [|k IH]; intros x; [reflexivity|].
    cbn [calls]; rewrite dnext_sim.
    destruct (dbfs_next gvc (fun c => c) fetch_nary f x) as [[o x1]| | |]; cbn [Rmap bindR]; try reflexivity.
    rewrite IH; destruct (calls (dbfs_next gvc (fun c => c) fetch_nary) k x1 f) as [[os x2]| | |]; reflexivity.
  Qed.

  Lemma drops_sim k n path f :
    use_and_drop (dbfs_next gvc (fun c => c) fetch_nary) dbfs_drop k (dbfs_new gvc n path) f =
    use_and_drop (dbfs_next gvc (map Some) (bfsc_skip (Nd:=Nd))) dbfs_drop k (dbfs_new gvc n path) f.
  Proof.
    unfold use_and_drop.
    assert (E : dbfs_new (I:=option Nd) gvc n path = lift (dbfs_new gvc n path)) by (unfold dbfs_new; destruct (gvc n); reflexivity).
    rewrite E, dcalls_sim; destruct (calls _ k (dbfs_new gvc n path) f) as [[os [g s]]| | |]; reflexivity.
  Qed.

  Lemma opt_value_Some (l : list Nd) i : flat_map opt_value (firstn i (map Some l)) = firstn i l.
  Proof. revert i; induction l as [|x l IH]; intros [|i]; cbn; auto; f_equal; apply IH. Qed.

  Lemma drops_nary nt P0 n k : node_tree gvc nt -> small_nodes gvc (nt n) -> exists g,
    use_and_drop (dbfs_next gvc (fun c => c) fetch_nary) dbfs_drop k (dbfs_new gvc n (map N.of_nat P0)) ⇓
      Ok (map (nth_error (map (context_at gvc) (bfs (annotate P0 [] (nt n))))) (seq 0 k), g) /\
    Permutation (dropped g ++ leaked g) (map (fun q => nval gvc (pos_here q)) (firstn (max 1 k) (bfs (annotate P0 [] (nt n))))) /\
    (length (bfs (annotate P0 [] (nt n))) < k -> leaked g = []) /\
    (forall k' c above parent p i, k = S k' -> nth_error (bfs (annotate P0 [] (nt n))) k' = Some c ->
       pos_above c = above ++ [parent] -> pos_path c = p ++ [i] ->
       exists other, Permutation (leaked g) (map (nval gvc) (firstn i (nkids gvc parent)) ++ other)).
  Proof.
    intros Hnt Hsm.
    destruct (drops_run gvc (map Some) _ _ P0 n (slot_law_nary gvc nt Hnt) (small_law_nary gvc nt Hnt) Hsm k) as (g & H1 & H2 & H3 & H4).
    exists g; split; [eapply conv_ext; [intros f; apply drops_sim|exact H1]|]; split; [exact H2|]; split; [exact H3|].
    intros k' c above parent p i E Hn Ha Hp; destruct (H4 k' c above parent p i E Hn Ha Hp) as (other & Ho).
    rewrite opt_value_Some in Ho; eauto.
  Qed.
End Nary.
