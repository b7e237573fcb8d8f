(** * Proofs for edited traversals: the machine which works on nodes whose children are replaced runs in
    lockstep with the machine which works on the tree of the replaced children. *)
From Verif Require Import Prelim PrelimFacts Spec SpecFacts SpecObs SpecEdit ModelNode NodeFacts ModelBfs ModelPre ModelEdit Slots ProofsPlain ProofsPre BfsCore ProofsBfs.

(** ** The bookkeeping of the breadth-first iterators does not look at the values *)
Section Natural.
  Context {V W : Type} (h : V -> W).

  Fixpoint cm (c : cnode V) : cnode W :=
    match c with CNode v p l => CNode (option_map h v) p (map (option_map cm) l) end.
  Definition cmd := map (option_map cm).
  Definition cst (s : cdfs_st (V:=V)) : cdfs_st (V:=W) :=
    let '(anc, path, cache, stack) := s in (map h anc, path, cm cache, map cm stack).

  Lemma cm_children c : cn_children (cm c) = cmd (cn_children c).
  Proof. destruct c; reflexivity. Qed.
  Lemma cm_set c l : cm (cn_set_children c l) = cn_set_children (cm c) (cmd l).
  Proof. destruct c; reflexivity. Qed.
  Lemma top_cm stack cache : top_children (map cm stack) (cm cache) = cmd (top_children stack cache).
  Proof. destruct stack; cbn; apply cm_children. Qed.
  Lemma set_top_cm stack cache l : set_top_children (map cm stack) (cm cache) (cmd l) =
    (map cm (fst (set_top_children stack cache l)), cm (snd (set_top_children stack cache l))).
  Proof. destruct stack; cbn; rewrite cm_set; reflexivity. Qed.
  Lemma cmd_app a b : cmd (a ++ b) = cmd a ++ cmd b.
  Proof. apply map_app. Qed.

  Lemma body_cm sd f s : cadvance_dfs_body sd f (cst s) = Rmap (sum_map cst cst) (cadvance_dfs_body sd f s).
  Proof.
    destruct s as [[[anc path] cache] stack]; unfold cadvance_dfs_body; cbn [cst].
    rewrite top_cm; destruct (top_children stack cache) as [|child rest]; cbn [cmd map]; [reflexivity|].
    change (map (option_map cm) rest) with (cmd rest); rewrite set_top_cm.
    destruct (set_top_children stack cache rest) as [stack1 cache1]; cbn [fst snd].
    destruct child as [[value seg ch]|]; cbn [option_map cm].
    - destruct value as [v|]; cbn [option_map assume_init bindR Rmap]; [|reflexivity].
      change (h v :: map h anc) with (map h (v :: anc)); rewrite map_length.
      destruct ch as [|c ch]; cbn [map negb andb].
      + destruct (sd <=? length (v :: anc)); reflexivity.
      + reflexivity.
    - assert (Hset : (match cmd rest with [] => (map cm stack1, cm cache1) | _ :: _ => set_top_children (map cm stack1) (cm cache1) (cmd rest ++ [None]) end) =
        (map cm (fst (match rest with [] => (stack1, cache1) | _ :: _ => set_top_children stack1 cache1 (rest ++ [None]) end)),
         cm (snd (match rest with [] => (stack1, cache1) | _ :: _ => set_top_children stack1 cache1 (rest ++ [None]) end)))).
      { destruct rest as [|o rest]; [reflexivity|].
        rewrite <- set_top_cm, cmd_app; reflexivity. }
      rewrite Hset; clear Hset.
      destruct (match rest with [] => (stack1, cache1) | _ :: _ => set_top_children stack1 cache1 (rest ++ [None]) end) as [stack2 cache2]; cbn [fst snd].
      rewrite map_length; destruct (1 <? length anc).
      + destruct stack2 as [|[v2 s2 l2] stack2]; [reflexivity|]; cbn [map cm].
        destruct anc as [|v anc]; [reflexivity|]; destruct path as [|p path]; [reflexivity|]; cbn [map bindR].
        rewrite top_cm.
        change (cmd (top_children stack2 cache2) ++ [Some (CNode (Some (h v)) p (map (option_map cm) l2))]) with
          (cmd (top_children stack2 cache2) ++ cmd [Some (CNode (Some v) p l2)]).
        rewrite <- cmd_app, set_top_cm.
        destruct (set_top_children stack2 cache2 _) as [stack3 cache3]; reflexivity.
      + cbn [bindR]; destruct stack2 as [|x2 stack2]; cbn [map]; [reflexivity|].
        rewrite top_cm.
        change [Some (cm x2)] with (cmd [Some x2]); rewrite <- cmd_app, set_top_cm.
        destruct (set_top_children stack2 cache2 _) as [stack3 cache3]; reflexivity.
  Qed.

  Lemma advance_cm f s : cadvance_dfs f (cst s) = Rmap cst (cadvance_dfs f s).
  Proof.
    destruct s as [[[anc path] cache] stack]; unfold cadvance_dfs; cbn [cst]; rewrite map_length.
    exact (loop_sim cst cst _ _ (body_cm (length anc)) f (anc, path, cache, stack)).
  Qed.

  Lemma tl_map {A B} (g : A -> B) l : tl (map g l) = map g (tl l).
  Proof. destruct l; reflexivity. Qed.

  Lemma drop_cm : forall stack anc path,
    cdrop_finished (map h anc) path (map cm stack) =
    let '(anc', path', stack') := cdrop_finished anc path stack in (map h anc', path', map cm stack').
  Proof.
    induction stack as [|x stack IH]; intros anc path; cbn [map cdrop_finished]; [reflexivity|].
    rewrite cm_children; unfold cmd; rewrite map_length.
    destruct (1 <? length (cn_children x)); [reflexivity|rewrite tl_map; apply IH].
  Qed.

  Lemma to_next_cm f s : cto_next_parent f (cst s) = Rmap cst (cto_next_parent f s).
  Proof.
    destruct s as [[[anc path] cache] stack]; unfold cto_next_parent; cbn [cst].
    rewrite top_cm; destruct (top_children stack cache) as [|o l]; cbn [cmd map].
    - rewrite (drop_cm stack anc path); destruct (cdrop_finished anc path stack) as [[anc' path'] stack'].
      exact (advance_cm f (anc', path', cache, stack')).
    - pose proof (set_top_cm stack cache (None :: o :: l)) as E; cbn [cmd map option_map] in E |- *; rewrite E.
      destruct (set_top_children stack cache (None :: o :: l)) as [stack' cache'].
      exact (advance_cm f (anc, path, cache', stack')).
  Qed.

  Lemma update_cm g g' : (forall x, cm (g x) = g' (cm x)) -> forall stack i,
    update_from_bottom i g' (map cm stack) = option_map (map cm) (update_from_bottom i g stack).
  Proof.
    intros H stack i; unfold update_from_bottom; rewrite <- map_rev.
    assert (E : forall l i, update_nth i g' (map cm l) = option_map (map cm) (update_nth i g l)).
    { induction l as [|x l IH]; intros [|j]; cbn; try reflexivity; [rewrite H; reflexivity|].
      rewrite IH; destruct (update_nth j g l); reflexivity. }
    rewrite E; destruct (update_nth i g (rev stack)); cbn; [rewrite map_rev|]; reflexivity.
  Qed.

  Lemma maybe_pop_cm s : cmaybe_pop (cst s) = Rmap cst (cmaybe_pop s).
  Proof.
    destruct s as [[[anc path] cache] stack]; unfold cmaybe_pop; cbn [cst]; rewrite !map_length.
    destruct (length anc =? length stack + 2); [|reflexivity].
    unfold cpop_from_item_stack.
    destruct anc as [|v [|a below]]; [reflexivity|reflexivity|].
    destruct path as [|p path]; [reflexivity|]; cbn [map].
    assert (Hg : forall x, cm (cn_set_children x (cn_children x ++ [Some (CNode (Some v) p [])])) =
                           cn_set_children (cm x) (cn_children (cm x) ++ [Some (CNode (Some (h v)) p [])])).
    { intros x; rewrite cm_set, cm_children, cmd_app; reflexivity. }
    destruct below as [|b below].
    - cbn [cst tl Rmap]; rewrite Hg; reflexivity.
    - cbn [map]; rewrite (update_cm (fun n => cn_set_children n (cn_children n ++ [Some (CNode (Some v) p [])]))) by exact Hg.
      cbn [length]; rewrite map_length.
      destruct (update_from_bottom _ _ stack) as [stack'|]; reflexivity.
  Qed.
End Natural.

(** ** Lockstep *)
Section Lockstep.
  (** [S1]: the machine over the edited tree; [S2]: the one which is edited. *)
  Context {S1 S2 X1 X2 C1 C2 G P : Type}.
  Variable advance1 : nat -> S1 -> Res S1.
  Variable get1 : S1 -> option X1.
  Variable advance2 : nat -> S2 -> Res S2.
  Variable get2 : S2 -> option X2.
  Variable children2 : S2 -> option C2.
  Variable set2 : S2 -> C2 -> S2.
  Variable edit : G -> X2 -> G * C2.
  Variable sm raw : S1 -> S2.
  Variable at1 : P -> X1.
  Variable at2 : P -> X2.
  Variable kids : P -> C2.

  Hypothesis Hadv : forall f s, advance2 f (sm s) = Rmap raw (advance1 f s).
  Hypothesis Hnone : forall s, get1 s = None -> get2 (raw s) = None /\ raw s = sm s.
  Hypothesis Hsome : forall f s0 s x, advance1 f s0 = Ok s -> get1 s = Some (at1 x) ->
    get2 (raw s) = Some (at2 x) /\ children2 (raw s) <> None /\ set2 (raw s) (kids x) = sm s.

  Let next1 f s := s' <- advance1 f s ;; Ok (get1 s', s').
  Let next2 := next_edited advance2 get2 children2 set2 edit.
  Let R (s : S2 * G) (l : list X2) : Prop :=
    exists s1 xs g', fst s = sm s1 /\ yields next1 s1 (map at1 xs) /\ l = map at2 xs /\
      edits_into edit at2 kids (snd s) xs g'.

  Lemma next1_inv f s o s' : next1 f s = Ok (o, s') -> advance1 f s = Ok s' /\ o = get1 s'.
  Proof. unfold next1; destruct (advance1 f s); cbn; try discriminate; intros E; injection E as <- <-; auto. Qed.

  Lemma lock_step s1 xs g g' : yields next1 s1 (map at1 xs) -> edits_into edit at2 kids g xs g' ->
    exists s1' g1, (fun f => next2 f (sm s1, g)) ⇓ Ok (hd_error (map at2 xs), (sm s1', g1)) /\
      yields next1 s1' (map at1 (tl xs)) /\ edits_into edit at2 kids g1 (tl xs) g'.
  Proof.
    intros Hy He.
    destruct (yields_step_inv _ _ _ Hy) as (s1' & Hn & Hy').
    destruct Hn as [F HF].
    destruct He as [g|g x xs g1 g' Ex He]; cbn [map hd_error tl] in *.
    - exists s1', g; split; [|split; [exact Hy'|constructor]].
      exists F; intros f Hf; destruct (next1_inv _ _ _ _ (HF f Hf)) as [Ea Eg].
      unfold next2, next_edited; rewrite Hadv, Ea; cbn [Rmap bindR].
      destruct (Hnone s1' (eq_sym Eg)) as [-> ->]; reflexivity.
    - exists s1', g1; split; [|split; [exact Hy'|exact He]].
      exists F; intros f Hf; destruct (next1_inv _ _ _ _ (HF f Hf)) as [Ea Eg].
      unfold next2, next_edited; rewrite Hadv, Ea; cbn [Rmap bindR].
      destruct (Hsome f s1 s1' x Ea (eq_sym Eg)) as (-> & Hc & Hs).
      destruct (children2 (raw s1')) as [c|]; [|contradiction]; cbn [unwrap bindR].
      rewrite Ex, Hs; reflexivity.
  Qed.

  Lemma lock_yields s1 xs g g' : yields next1 s1 (map at1 xs) -> edits_into edit at2 kids g xs g' ->
    yields_leaving next2 (sm s1, g) (map at2 xs) g'.
  Proof.
    intros Hy He; split.
    - apply (step_inv_yields next2 R); [|exists s1, xs, g'; auto].
      intros [s g0] l (s0 & xs0 & g0' & E & Hy0 & -> & He0); cbn [fst snd] in *; subst s.
      destruct (lock_step _ _ _ _ Hy0 He0) as (s1' & g1 & Hn & Hy1 & He1).
      exists (sm s1', g1); split; [exact Hn|].
      exists s1', (tl xs0), g0'; repeat split; auto.
      destruct xs0; reflexivity.
    - intros k; revert s1 xs g Hy He; induction k as [|k IH]; intros s1 xs g Hy He os s' Hk Hc.
      + destruct xs; [|cbn in Hk; lia]; inversion He; subst.
        destruct Hc as [F HF]; specialize (HF F ltac:(lia)); cbn in HF; injection HF as _ <-; reflexivity.
      + destruct (calls_S_inv _ _ _ _ _ Hc) as (o & s1x & os' & Hn & Hc' & _).
        { destruct (lock_step _ _ _ _ Hy He) as (s1' & g1 & Hn & _); do 2 eexists; exact Hn. }
        destruct (lock_step _ _ _ _ Hy He) as (s1' & g1 & Hn' & Hy1 & He1).
        pose proof (conv_fun _ _ _ Hn Hn') as E; injection E as -> ->.
        apply (IH _ _ _ Hy1 He1 os' s'); [|exact Hc'].
        destruct xs; cbn in *; rewrite ?map_length in *; lia.
  Qed.
End Lockstep.

(** ** The four machines *)
Section Pre.
  Context {Nd1 Nd2 I1 I2 C1 C2 V : Type}.
  (** [hn]: the node of a tree of nodes; [hi]: the same for an item of a children iterator; [hc]: for the container. *)
  Variable hn : Nd1 -> Nd2.
  Variable hi : I1 -> I2.
  Variable hc : C1 -> C2.
  Variable gv : Nd2 -> V * C2.
  Variable gv1 : Nd1 -> Nd2 * C1.
  Hypothesis Hgv : forall n, fst (gv1 n) = hn n.
  Variable it1 : C1 -> list I1.
  Variable it2 : C2 -> list I2.
  Hypothesis Hit : forall c, it2 (hc c) = map hi (it1 c).

  Definition lmap (s : pc_loop_st (V:=Nd2) I1) : pc_loop_st (V:=V) I2 :=
    let '(st, p, a) := s in (map (map hi) st, p, map (nval gv) a).
  Definition lmap_r (s : option Nd1 * pc_loop_st (V:=Nd2) I1) : option Nd2 * pc_loop_st (V:=V) I2 :=
    let '(o, s) := s in (option_map hn o, lmap s).

  Variable body1 : nat -> pc_loop_st (V:=Nd2) I1 -> Res (pc_loop_st (V:=Nd2) I1 + option Nd1 * pc_loop_st (V:=Nd2) I1).
  Variable body2 : nat -> pc_loop_st (V:=V) I2 -> Res (pc_loop_st (V:=V) I2 + option Nd2 * pc_loop_st (V:=V) I2).
  Hypothesis Hbody : forall f s, body2 f (lmap s) = Rmap (sum_map lmap lmap_r) (body1 f s).

  Definition sm_pre (s : prec Nd1 Nd2 I1 C1) : prec Nd2 V I2 C2 :=
    mkPrec (option_map hn (pc_root s)) (map (map hi) (pc_stack s)) (pc_path s) (map (nval gv) (pc_anc s))
      (option_map hc (pc_children s)).
  (** After an advance, before the caller has written: the children are those of the node itself. *)
  Definition raw_pre (s : prec Nd1 Nd2 I1 C1) : prec Nd2 V I2 C2 :=
    mkPrec (option_map hn (pc_root s)) (map (map hi) (pc_stack s)) (pc_path s) (map (nval gv) (pc_anc s))
      (match pc_anc s with n :: _ => Some (nkids gv n) | [] => option_map hc (pc_children s) end).

  Lemma pre_adv f s : prec_advance_with gv it2 body2 f (sm_pre s) = Rmap raw_pre (prec_advance_with gv1 it1 body1 f s).
  Proof.
    unfold prec_advance_with.
    destruct s as [r stack path anc ch]; unfold sm_pre; cbn [pc_root pc_stack pc_path pc_anc pc_children].
    destruct r as [n|]; cbn [option_map].
    - rewrite (gv_eq gv), <- (Hgv n); destruct (gv1 n) as [v c]; reflexivity.
    - destruct anc as [|a anc]; [reflexivity|]; cbn [map].
      assert (H : forall st,
        bindR (loop body2 f (lmap st)) (fun x => let '(next, (stack, path, anc)) := x in
           match next with
           | Some node => let '(value, children) := gv node in Ok (mkPrec None stack path (value :: anc) (Some children))
           | None => Ok (mkPrec None stack path [] None)
           end) =
        Rmap raw_pre
          (bindR (loop body1 f st) (fun x => let '(next, (stack, path, anc)) := x in
             match next with
             | Some node => let '(value, children) := gv1 node in Ok (mkPrec None stack path (value :: anc) (Some children))
             | None => Ok (mkPrec None stack path [] None)
             end))).
      { intros st; rewrite (loop_sim lmap lmap_r _ _ Hbody).
        destruct (loop body1 f st) as [[[c|] [[st2 p2] a2]]| | |]; cbn [Rmap bindR lmap_r lmap option_map]; try reflexivity.
        rewrite (gv_eq gv), <- (Hgv c); destruct (gv1 c); reflexivity. }
      destruct ch as [children|]; cbn [option_map].
      + rewrite Hit; exact (H (it1 children :: stack, usize_max :: path, a :: anc)).
      + exact (H (stack, match path with [] => [] | p :: path' => if (p =? usize_max)%N then path' else p :: path' end, anc)).
  Qed.

  Lemma pre_none s : prec_get s = None -> prec_get (raw_pre s) = None /\ raw_pre s = sm_pre s.
  Proof. destruct s as [r st p [|a anc] c]; cbn; [auto|discriminate]. Qed.

  Lemma pre_some s p ab n c : prec_get s = Some (mkCtx p (ab ++ [n]) (Some c)) ->
    prec_get (raw_pre s) = Some (mkCtx p (map (nval gv) (ab ++ [n])) (Some (nkids gv n))) /\
    pc_children (raw_pre s) <> None /\ prec_set_children (raw_pre s) (hc c) = sm_pre s.
  Proof.
    destruct s as [r st p' anc c']; unfold prec_get, raw_pre, prec_set_children, sm_pre.
    cbn [pc_root pc_stack pc_path pc_anc pc_children].
    destruct anc as [|a anc]; [discriminate|].
    intros E; injection E as <- E ->.
    cbn [rev] in E; apply app_inj_tail in E; destruct E as [<- <-].
    cbn [map rev]; rewrite map_app, map_rev; cbn; repeat split; discriminate.
  Qed.
End Pre.

Section Bfs.
  Context {Nd1 Nd2 I1 I2 C1 C2 V : Type}.
  Variable hi : I1 -> I2.
  Variable hc : C1 -> C2.
  Variable gv : Nd2 -> V * C2.
  Variable it1 : C1 -> list I1.
  Variable it2 : C2 -> list I2.
  Hypothesis Hit : forall c, it2 (hc c) = map hi (it1 c).

  Definition sm_bfs (s : bfsc Nd2 I1 C1) : bfsc V I2 C2 :=
    mkBfsc (bc_is_root s) (cm (nval gv) (bc_cache s)) (map (cm (nval gv)) (bc_stack s)) (map (map hi) (bc_queue s))
      (bc_path s) (map (nval gv) (bc_anc s)) (option_map hc (bc_children s)) (bc_counter s).
  Definition raw_bfs (s : bfsc Nd2 I1 C1) : bfsc V I2 C2 :=
    mkBfsc (bc_is_root s) (cm (nval gv) (bc_cache s)) (map (cm (nval gv)) (bc_stack s)) (map (map hi) (bc_queue s))
      (bc_path s) (map (nval gv) (bc_anc s))
      (match bc_anc s with n :: _ => Some (nkids gv n) | [] => option_map hc (bc_children s) end) (bc_counter s).

  Variable body1 : nat -> bfsc Nd2 I1 C1 -> Res (bfsc Nd2 I1 C1 + bfsc Nd2 I1 C1).
  Variable body2 : nat -> bfsc V I2 C2 -> Res (bfsc V I2 C2 + bfsc V I2 C2).
  Hypothesis Hbody : forall f s, body2 f (sm_bfs s) = Rmap (sum_map sm_bfs raw_bfs) (body1 f s).

  (** For the first advance, which only clears the flag, the children of the machine which is edited are not yet edited. *)
  Definition start_bfs (s : bfsc Nd2 I1 C1) : bfsc V I2 C2 := if bc_is_root s then raw_bfs s else sm_bfs s.

  Lemma bfs_adv f s :
    bfsc_advance_with it2 body2 f (start_bfs s) = Rmap raw_bfs (bfsc_advance_with it1 body1 f s).
  Proof.
    destruct s as [rt cache stack queue path anc ch cnt]; unfold start_bfs, bfsc_advance_with; cbn [bc_is_root].
    destruct rt; cbn [bc_is_root raw_bfs sm_bfs]; [reflexivity|].
    cbn [bc_anc]; destruct anc as [|a anc]; [reflexivity|]; cbn [map bc_children].
    destruct ch as [ch|]; [|reflexivity]; cbn [option_map unwrap bindR].
    rewrite <- (loop_sim sm_bfs raw_bfs _ _ Hbody); f_equal.
    unfold sm_bfs; cbn; rewrite map_app, Hit; reflexivity.
  Qed.

  Lemma bfs_none s : bfsc_get s = None -> bfsc_get (raw_bfs s) = None /\ raw_bfs s = start_bfs s.
  Proof. destruct s as [[|] ca st q p [|a anc] c k]; cbn; try discriminate; auto. Qed.

  Hypothesis Hflag : forall f s x, body1 f s = Ok x -> match x with inl s' | inr s' => bc_is_root s' = bc_is_root s end.

  Lemma flag_loop f : forall s s', loop body1 f s = Ok s' -> bc_is_root s' = bc_is_root s.
  Proof.
    induction f as [|f IH]; intros s s'; cbn; [discriminate|].
    pose proof (Hflag f s) as Hb; destruct (body1 f s) as [[s1|s1]| | |]; try discriminate.
    - intros E; rewrite (IH _ _ E); exact (Hb _ eq_refl).
    - intros E; injection E as <-; exact (Hb _ eq_refl).
  Qed.

  Lemma flag_adv f s s' : bfsc_advance_with it1 body1 f s = Ok s' -> bc_is_root s' = false.
  Proof.
    unfold bfsc_advance_with; destruct (bc_is_root s) eqn:Er; [intros E; injection E as <-; reflexivity|].
    destruct (bc_anc s); [intros E; injection E as <-; exact Er|].
    destruct (bc_children s); cbn [unwrap bindR]; [|discriminate].
    intros E; apply flag_loop in E; exact E.
  Qed.

  Lemma bfs_some f s0 s p ab n c : bfsc_advance_with it1 body1 f s0 = Ok s ->
    bfsc_get s = Some (mkCtx p (ab ++ [n]) (Some c)) ->
    bfsc_get (raw_bfs s) = Some (mkCtx p (map (nval gv) (ab ++ [n])) (Some (nkids gv n))) /\
    bc_children (raw_bfs s) <> None /\ bfsc_set_children (raw_bfs s) (hc c) = start_bfs s.
  Proof.
    intros Ef; apply flag_adv in Ef; unfold start_bfs; rewrite Ef; revert Ef.
    destruct s as [rt ca st q p' anc c' k]; unfold bfsc_get, raw_bfs, bfsc_set_children, sm_bfs.
    cbn [bc_is_root bc_cache bc_stack bc_queue bc_path bc_anc bc_children bc_counter].
    destruct anc as [|a anc]; [discriminate|].
    intros _ E; injection E as <- E ->.
    cbn [rev] in E; apply app_inj_tail in E; destruct E as [<- <-].
    cbn [map rev]; rewrite map_app, map_rev; cbn; repeat split; discriminate.
  Qed.
End Bfs.

(** ** The theorems *)
Section Final.
  Context {Nd V G : Type}.

  Section Nary.
    Variable gvc : Nd -> V * list Nd.
    Variable edit : G -> tree_context V (list Nd) -> G * list Nd.
    Local Notation seen := (fun x => context_at gvc (node_at x)).

    Lemma context_tree (x : pos (tree Nd)) : context_at tree_gvc x =
      mkCtx (map N.of_nat (pos_path x)) (map root (pos_above x) ++ [root (pos_here x)]) (Some (subs (pos_here x))).
    Proof.
      unfold context_at; rewrite map_app; destruct x as [p ab [v ts]]; cbn.
      rewrite (map_ext (nval tree_gvc) root) by (intros [? ?]; reflexivity); reflexivity.
    Qed.
    Lemma small_tree_nodes {A} (t : tree A) : small_tree t -> small_nodes tree_gvc (subtrees t).
    Proof.
      unfold small_tree, small_nodes; intros H; eapply Forall_impl; [|exact H].
      intros [v ts]; cbn; auto.
    Qed.

    Lemma pre_body_map f s : prec_body f (lmap root gvc s) = Rmap (sum_map (lmap root gvc) (lmap_r root root gvc)) (prec_body f s).
    Proof.
      destruct s as [[[|top rest] path] anc]; [reflexivity|].
      destruct top as [|n top]; cbn; [rewrite tl_map; reflexivity|].
      destruct (incr_last path); reflexivity.
    Qed.

    Theorem prec_edited t g g' P : small_tree t ->
      edits_into edit seen kids_in g (preorder (annotate P [] (subtrees t))) g' ->
      yields_leaving (prec_next_edited gvc edit) (prec_new (root t) (map N.of_nat P), g)
        (map seen (preorder (annotate P [] (subtrees t)))) g'.
    Proof.
      intros Hs He.
      pose proof (prec_yields tree_gvc subtrees P t node_tree_tree (small_tree_nodes t Hs)) as Hy.
      refine (lock_yields (prec_advance tree_gvc) prec_get (prec_advance gvc) prec_get pc_children prec_set_children edit
        (sm_pre root root (map root) gvc) (raw_pre root root (map root) gvc) (context_at tree_gvc) seen kids_in
        _ (pre_none _ _ _ _) _ _ _ g g' Hy He).
      - intros f s; apply (pre_adv root root (map root) gvc tree_gvc); [intros [? ?]; reflexivity|reflexivity|].
        exact pre_body_map.
      - intros f s0 s x _ E; rewrite context_tree in E; apply (pre_some root root (map root) gvc) in E.
        destruct E as (E1 & E2 & E3); repeat split; auto.
    Qed.

    Lemma bfs_body_map f s :
      bfsc_body gvc f (sm_bfs root (map root) gvc s) =
      Rmap (sum_map (sm_bfs root (map root) gvc) (raw_bfs root (map root) gvc)) (bfsc_body tree_gvc f s).
    Proof.
      destruct s as [rt cache stack queue path anc ch cnt]; set (phi := sum_map (sm_bfs root (map root) gvc) (raw_bfs root (map root) gvc)); unfold bfsc_body, sm_bfs.
      cbn [bc_is_root bc_cache bc_stack bc_queue bc_path bc_anc bc_children bc_counter].
      pose proof (maybe_pop_cm (nval gvc) (anc, path, cache, stack)) as Ep; cbn [cst] in Ep; rewrite Ep; clear Ep.
      destruct (cmaybe_pop (anc, path, cache, stack)) as [[[[anc1 path1] cache1] stack1]| | |]; cbn [bindR Rmap cst]; try reflexivity.
      destruct queue as [|[|nd iter] queue]; cbn [map]; [reflexivity| |].
      - pose proof (to_next_cm (nval gvc) f (anc1, path1, cache1, stack1)) as Ep; cbn [cst] in Ep; rewrite Ep; clear Ep.
        destruct (cto_next_parent f (anc1, path1, cache1, stack1)) as [[[[anc2 path2] cache2] stack2]| | |]; cbn [bindR Rmap cst]; try reflexivity.
        destruct queue; reflexivity.
      - destruct (checked_succ cnt); cbn [bindR Rmap]; try reflexivity.
        destruct nd as [v ts]; cbn [tree_gvc root]; rewrite (gv_eq gvc v); reflexivity.
    Qed.

    Lemma bfs_flag (f : nat) (s : bfsc Nd (tree Nd) (list (tree Nd))) x :
      bfsc_body tree_gvc f s = Ok x -> match x with inl s' | inr s' => bc_is_root s' = bc_is_root s end.
    Proof.
      unfold bfsc_body.
      destruct (cmaybe_pop _) as [[[[anc1 path1] cache1] stack1]| | |]; cbn [bindR]; try discriminate.
      destruct (bc_queue s) as [|[|nd iter] queue]; [discriminate| |].
      - destruct (cto_next_parent _ _) as [[[[anc2 path2] cache2] stack2]| | |]; cbn [bindR]; try discriminate.
        destruct queue; intros E; injection E as <-; reflexivity.
      - destruct (checked_succ _); cbn [bindR]; try discriminate.
        destruct nd; cbn; intros E; injection E as <-; reflexivity.
    Qed.

    Theorem bfsc_edited t g g' P : small_tree t ->
      edits_into edit seen kids_in g (bfs (annotate P [] (subtrees t))) g' ->
      yields_leaving (bfsc_next_edited gvc edit) (bfsc_new (nval gvc (root t)) (nkids gvc (root t)) (map N.of_nat P), g)
        (map seen (bfs (annotate P [] (subtrees t)))) g'.
    Proof.
      intros Hs He.
      pose proof (bfsc_yields tree_gvc subtrees P t node_tree_tree (small_tree_nodes t Hs)) as Hy.
      assert (Es : (bfsc_new (nval gvc (root t)) (nkids gvc (root t)) (map N.of_nat P) : bfsc V Nd (list Nd)) =
        start_bfs root (map root) gvc (bfsc_new (nval tree_gvc t) (nkids tree_gvc t) (map N.of_nat P))).
      { destruct t as [v ts]; reflexivity. }
      rewrite Es.
      refine (lock_yields (bfsc_advance tree_gvc) bfsc_get (bfsc_advance gvc) bfsc_get bc_children bfsc_set_children edit
        (start_bfs root (map root) gvc) (raw_bfs root (map root) gvc) (context_at tree_gvc) seen kids_in
        _ (bfs_none _ _ _) _ _ _ g g' Hy He).
      - intros f s; apply (bfs_adv root (map root) gvc); [reflexivity|].
        exact bfs_body_map.
      - intros f s0 s x Ea E; rewrite context_tree in E; apply (bfs_some root (map root) gvc _ _ bfs_flag _ _ _ _ _ _ _ Ea) in E.
        destruct E as (E1 & E2 & E3); repeat split; auto.
    Qed.
  End Nary.

  Section Binary.
    Variable gvcb : Nd -> V * (option Nd * option Nd).
    Variable edit : G -> tree_context V (option Nd * option Nd) -> G * (option Nd * option Nd).
    Local Notation seen := (fun x => context_at gvcb (bnode_at x)).
    Local Notation ho := (option_map broot).
    Local Notation hp := (fun c => (option_map broot (fst c), option_map broot (snd c))).

    Lemma context_btree (x : pos (btree Nd)) : context_at btree_gvcb x =
      mkCtx (map N.of_nat (pos_path x)) (map broot (pos_above x) ++ [broot (pos_here x)]) (Some (bleft (pos_here x), bright (pos_here x))).
    Proof.
      unfold context_at; rewrite map_app; destruct x as [p ab [v l r]]; cbn.
      rewrite (map_ext (nval btree_gvcb) broot) by (intros [? ? ?]; reflexivity); reflexivity.
    Qed.

    Lemma scan_map : forall top path, prec_scan (map ho top) path =
      Rmap (fun '(o, l, p) => (ho o, map ho l, p)) (prec_scan (Nd:=btree Nd) top path).
    Proof.
      induction top as [|o top IH]; intros path; cbn; [reflexivity|].
      destruct (incr_last path); cbn; try reflexivity.
      destruct o; cbn; [reflexivity|apply IH].
    Qed.

    Lemma preb_body_map f s : precb_body f (lmap ho gvcb s) = Rmap (sum_map (lmap ho gvcb) (lmap_r broot ho gvcb)) (precb_body f s).
    Proof.
      destruct s as [[[|top rest] path] anc]; [reflexivity|].
      cbn [lmap map precb_body]; rewrite scan_map; destruct (prec_scan top path) as [[[[n|] l] p]| | |]; cbn; try reflexivity.
      rewrite tl_map; reflexivity.
    Qed.

    Theorem precb_edited t g g' P :
      edits_into edit seen bkids_in g (preorder (flat (bannotate P [] (bsubtrees t)))) g' ->
      yields_leaving (precb_next_edited gvcb edit) (prec_new (broot t) (map N.of_nat P), g)
        (map seen (preorder (flat (bannotate P [] (bsubtrees t))))) g'.
    Proof.
      intros He.
      pose proof (precb_yields btree_gvcb pair_iter _ _ P (slot_law_binary btree_gvcb bsubtrees node_btree_btree) (small_law_binary btree_gvcb) t I) as Hy.
      refine (lock_yields (precb_advance btree_gvcb pair_iter) prec_get (precb_advance gvcb pair_iter) prec_get pc_children prec_set_children edit
        (sm_pre broot ho hp gvcb) (raw_pre broot ho hp gvcb) (context_at btree_gvcb) seen bkids_in
        _ (pre_none _ _ _ _) _ _ _ g g' Hy He).
      - intros f s; apply (pre_adv broot ho hp gvcb btree_gvcb); [intros [? ? ?]; reflexivity|intros [? ?]; reflexivity|].
        exact preb_body_map.
      - intros f s0 s x _ E; rewrite context_btree in E; apply (pre_some broot ho hp gvcb) in E.
        destruct E as (E1 & E2 & E3); repeat split; auto.
    Qed.

    Lemma skip_map : forall iter cnt, bfsc_skip (map ho iter) cnt =
      Rmap (fun '(o, l, p) => (ho o, map ho l, p)) (bfsc_skip (Nd:=btree Nd) iter cnt).
    Proof.
      induction iter as [|[n|] iter IH]; intros cnt; cbn; [reflexivity|reflexivity|].
      destruct (checked_succ cnt); cbn; auto.
    Qed.

    Lemma bfsb_body_map f s :
      bfscb_body gvcb f (sm_bfs ho hp gvcb s) =
      Rmap (sum_map (sm_bfs ho hp gvcb) (raw_bfs ho hp gvcb)) (bfscb_body btree_gvcb f s).
    Proof.
      destruct s as [rt cache stack queue path anc ch cnt]; set (phi := sum_map (sm_bfs ho hp gvcb) (raw_bfs ho hp gvcb)); unfold bfscb_body, sm_bfs.
      cbn [bc_is_root bc_cache bc_stack bc_queue bc_path bc_anc bc_children bc_counter].
      pose proof (maybe_pop_cm (nval gvcb) (anc, path, cache, stack)) as Ep; cbn [cst] in Ep; rewrite Ep; clear Ep.
      destruct (cmaybe_pop (anc, path, cache, stack)) as [[[[anc1 path1] cache1] stack1]| | |]; cbn [bindR Rmap cst]; try reflexivity.
      destruct queue as [|front queue]; cbn [map]; [reflexivity|].
      rewrite skip_map; destruct (bfsc_skip front cnt) as [[[[nd|] iter] cnt1]| | |]; cbn [bindR Rmap option_map]; try reflexivity.
      - destruct (checked_succ cnt1); cbn [bindR Rmap]; try reflexivity.
        destruct nd as [v l r]; cbn [btree_gvcb broot]; rewrite (gv_eq gvcb v); reflexivity.
      - pose proof (to_next_cm (nval gvcb) f (anc1, path1, cache1, stack1)) as Ep; cbn [cst] in Ep; rewrite Ep; clear Ep.
        destruct (cto_next_parent f (anc1, path1, cache1, stack1)) as [[[[anc2 path2] cache2] stack2]| | |]; cbn [bindR Rmap cst]; try reflexivity.
        destruct queue; reflexivity.
    Qed.

    Lemma bfsb_flag (f : nat) (s : bfsc Nd (option (btree Nd)) (option (btree Nd) * option (btree Nd))) x :
      bfscb_body btree_gvcb f s = Ok x -> match x with inl s' | inr s' => bc_is_root s' = bc_is_root s end.
    Proof.
      unfold bfscb_body.
      destruct (cmaybe_pop _) as [[[[anc1 path1] cache1] stack1]| | |]; cbn [bindR]; try discriminate.
      destruct (bc_queue s) as [|front queue]; [discriminate|].
      destruct (bfsc_skip front _) as [[[[nd|] iter] cnt1]| | |]; cbn [bindR]; try discriminate.
      - destruct (checked_succ _); cbn [bindR]; try discriminate.
        destruct nd; cbn; intros E; injection E as <-; reflexivity.
      - destruct (cto_next_parent _ _) as [[[[anc2 path2] cache2] stack2]| | |]; cbn [bindR]; try discriminate.
        destruct queue; intros E; injection E as <-; reflexivity.
    Qed.

    Theorem bfscb_edited t g g' P :
      edits_into edit seen bkids_in g (bfs (flat (bannotate P [] (bsubtrees t)))) g' ->
      yields_leaving (bfscb_next_edited gvcb edit) (bfsc_new (nval gvcb (broot t)) (nkids gvcb (broot t)) (map N.of_nat P), g)
        (map seen (bfs (flat (bannotate P [] (bsubtrees t))))) g'.
    Proof.
      intros He.
      pose proof (bfscb_yields btree_gvcb pair_iter _ _ P t (slot_law_binary btree_gvcb bsubtrees node_btree_btree) (small_law_binary btree_gvcb) I) as Hy.
      assert (Es : (bfsc_new (nval gvcb (broot t)) (nkids gvcb (broot t)) (map N.of_nat P) : bfsc V (option Nd) (option Nd * option Nd)) =
        start_bfs ho hp gvcb (bfsc_new (nval btree_gvcb t) (nkids btree_gvcb t) (map N.of_nat P))).
      { destruct t as [v l r]; reflexivity. }
      rewrite Es.
      refine (lock_yields (bfscb_advance btree_gvcb pair_iter) bfsc_get (bfscb_advance gvcb pair_iter) bfsc_get bc_children bfsc_set_children edit
        (start_bfs ho hp gvcb) (raw_bfs ho hp gvcb) (context_at btree_gvcb) seen bkids_in
        _ (bfs_none _ _ _) _ _ _ g g' Hy He).
      - intros f s; apply (bfs_adv ho hp gvcb); [intros [? ?]; reflexivity|].
        exact bfsb_body_map.
      - intros f s0 s x Ea E; rewrite context_btree in E; apply (bfs_some ho hp gvcb _ _ bfsb_flag _ _ _ _ _ _ _ Ea) in E.
        destruct E as (E1 & E2 & E3); repeat split; auto.
    Qed.
  End Binary.
End Final.
