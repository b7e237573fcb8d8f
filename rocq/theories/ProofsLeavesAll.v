(** * [leaves()] of a used depth-first iterator with ancestors: no leaf is lost and none is repeated. *)
From Coq Require Import Permutation.
From Verif Require Import Prelim PrelimFacts Spec SpecFacts SpecObs ModelNode NodeFacts.
From Verif Require Import ModelPre ModelPost ModelIn ModelLeaves ProofsPlain ProofsPre ProofsTree ProofsMore ProofsLeaves ProofsLeavesTotal ProofsLeavesMid.

(** What a relation to the list of what is left says after [k] calls. *)
Lemma tail_run {S A B} (next : nat -> S -> Res (option A * S)) (G : S -> list B -> Prop) :
  (forall f s ns o s', G s ns -> next f s = Ok (o, s') -> G s' (tl ns)) ->
  forall k s ns s', G s ns -> after next k s s' -> G s' (skipn k ns).
Proof.
  intros HG k s ns s' H [os [F HF]]; specialize (HF F (le_n F)).
  revert s ns os H HF; induction k as [|k IH]; intros s ns os H HF; cbn in HF.
  - injection HF as _ <-; exact H.
  - destruct (next F s) as [[o s1]| | |] eqn:En; try discriminate.
    cbn in HF; destruct (calls next k s1 F) as [[os1 s2]| | |] eqn:Ec; try discriminate.
    cbn in HF; injection HF as <- <-.
    specialize (IH s1 (tl ns) os1 (HG _ _ _ _ _ H En) Ec).
    destruct ns as [|x ns]; [rewrite skipn_nil in IH; exact IH|exact IH].
Qed.

Section Leaves.
  Context {Nd V : Type} (gvc : Nd -> V * list Nd) (nt : Nd -> tree Nd).
  Hypothesis Hnt : node_tree gvc nt.
  Local Notation kids := (nkids gvc).
  Local Notation leaf := (is_leaf gvc).
  Local Notation size := (size nt).
  Local Notation sizes := (sizes nt).
  Local Notation weight := (weight nt).

  (** The leaves below a node. *)
  Definition lv (n : Nd) : list Nd := filter leaf (preorder (nt n)).
  Definition lk (n : Nd) : list Nd := if leaf n then [n] else [].

  Lemma lv_unfold n : lv n = lk n ++ flat_map lv (kids n).
  Proof.
    unfold lv at 1; rewrite (nt_unfold _ _ Hnt); cbn [preorder filter]; unfold lk.
    assert (E : filter leaf (flat_map preorder (map nt (kids n))) = flat_map lv (kids n)).
    { rewrite flat_map_concat_map, map_map, <- flat_map_concat_map, filter_flat_map; reflexivity. }
    rewrite E; destruct (leaf n); reflexivity.
  Qed.
  Lemma lk_kids n : kids n = [] -> lk n = [n].
  Proof. unfold lk, is_leaf, nkids; intros ->; reflexivity. Qed.
  Lemma lk_kids' n c cs : kids n = c :: cs -> lk n = [].
  Proof. unfold lk, is_leaf, nkids; intros ->; reflexivity. Qed.

  Definition rem (s : daleaves Nd V) : list Nd := flat_map lv (concat (da_new s)) ++ flat_map lv (concat (da_old s)).
  Definition pend (p : option Nd) : list Nd := match p with Some n => lk n | None => [] end.

  Definition pre_st (p : option Nd) (s : daleaves Nd V) : Prop :=
    match p with Some n => exists it nw, da_items s = nval gvc n :: it /\ da_new s = kids n :: nw | None => True end.
  Definition is_some {A} (o : option A) : bool := match o with Some _ => true | None => false end.

  Definition post_st (T : list Nd) (s' : daleaves Nd V) : Prop :=
    match da_items s' with
    | [] => Permutation T (rem s')
    | x :: _ => exists n, x = nval gvc n /\ Permutation T (n :: rem s')
    end.
  Lemma post_perm T T' s' : Permutation T T' -> post_st T' s' -> post_st T s'.
  Proof.
    unfold post_st; intros HP; destruct (da_items s').
    - intros H; etransitivity; eauto.
    - intros (n & E & H); exists n; split; [exact E|etransitivity; eauto].
  Qed.

  Lemma sizes_cons n l : sizes (n :: l) = size n + sizes l.
  Proof. reflexivity. Qed.

  Lemma da_loop : forall f p s s', pre_st p s -> loop (daleaves_body gvc) f (is_some p, s) = Ok s' ->
    post_st (pend p ++ rem s) s' /\ da_root s' = da_root s /\ weight s' <= weight s /\
    (p = None -> weight s' < weight s \/ (da_new s = [] /\ da_old s = [])).
  Proof.
    induction f as [|f IH]; intros p [r items old new] s' Hp E; [discriminate|]; cbn [loop] in E.
    assert (Hpush : forall n items1 old1 new1, loop (daleaves_body gvc) f (true, mkDa r (nval gvc n :: items1) old1 (kids n :: new1)) = Ok s' ->
      post_st (lv n ++ flat_map lv (concat new1) ++ flat_map lv (concat old1)) s' /\ da_root s' = r /\
      weight s' + 1 <= 3 * (size n + sizes (concat new1) + sizes (concat old1)) + length new1 + length old1 + length items1).
    { intros n i1 o1 n1 Hl.
      destruct (IH (Some n) (mkDa r (nval gvc n :: i1) o1 (kids n :: n1)) s') as (H1 & H2 & H3 & _);
        [exists i1, n1; auto|exact Hl|]; split; [|split; [exact H2|]].
      - unfold rem in H1; cbn [pend da_new da_old concat] in H1.
        eapply post_perm; [|exact H1]; rewrite lv_unfold, flat_map_app, <- !app_assoc; reflexivity.
      - unfold weight in H3 at 2; cbn [da_new da_old da_items concat length] in H3.
        rewrite sizes_app in H3; rewrite (size_unfold gvc nt Hnt); lia. }
    unfold daleaves_body at 1 in E; cbn [da_new da_old da_items da_root] in E.
    destruct new as [|[|c top] rest].
    - (* nothing new *)
      destruct p as [n|]; cbn [is_some] in E.
      + destruct Hp as (it & nw & _ & Hnew); discriminate.
      + destruct old as [|[|c top] rest]; cbn [tl] in E.
        * destruct (tl items) as [|x its] eqn:Et; [injection E as <-|].
          -- split; [apply Permutation_refl|split; [reflexivity|split; [unfold weight; cbn; lia|intros _; right; split; reflexivity]]].
          -- destruct (IH None (mkDa r (x :: its) [] []) s' I E) as (H1 & H2 & H3 & _).
             split; [exact H1|split; [exact H2|split; [|intros _; right; split; reflexivity]]].
             assert (length (x :: its) <= length items) by (rewrite <- Et; destruct items; cbn; lia).
             unfold weight in *; cbn [da_new da_old da_items concat length] in *; lia.
        * destruct (tl items) as [|x its] eqn:Et; [injection E as <-|].
          -- split; [apply Permutation_refl|split; [reflexivity|]]; unfold weight; cbn [da_new da_old da_items concat length app]; split; [lia|intros _; left; lia].
          -- destruct (IH None (mkDa r (x :: its) rest []) s' I E) as (H1 & H2 & H3 & _).
             assert (length (x :: its) <= length items) by (rewrite <- Et; destruct items; cbn; lia).
             split; [exact H1|split; [exact H2|]]; unfold weight in *; cbn [da_new da_old da_items concat length app] in *; split; [lia|intros _; left; lia].
        * rewrite (gv_eq gvc) in E; destruct (Hpush _ _ _ _ E) as (H1 & H2 & H3).
          split; [|split; [exact H2|]].
          -- unfold rem; cbn [da_new da_old concat app flat_map pend]; cbn [concat app flat_map] in H1; exact H1.
          -- unfold weight at 2 4; cbn [da_new da_old da_items concat length app] in *; rewrite sizes_cons; split; [lia|intros _; left; lia].
    - (* the top new level is empty *)
      destruct p as [n|]; cbn [is_some] in E.
      + destruct Hp as (it & nw & Hi & Hnew); cbn [da_items da_new] in Hi, Hnew; injection Hnew as Hk <-; injection E as <-.
        split; [|split; [reflexivity|]].
        * unfold post_st; cbn [da_items tl]; rewrite Hi; exists n; split; [reflexivity|].
          cbn [pend]; rewrite (lk_kids n (eq_sym Hk)); reflexivity.
        * unfold weight; cbn [da_new da_old da_items concat length app tl]; split; [lia|discriminate].
      + destruct old as [|[|c top] rest']; cbn [tl] in E.
        * destruct (tl items) as [|x its] eqn:Et; [injection E as <-|].
          -- split; [apply Permutation_refl|split; [reflexivity|]]; unfold weight; cbn [da_new da_old da_items concat length app]; split; [lia|intros _; left; lia].
          -- destruct (IH None (mkDa r (x :: its) [] rest) s' I E) as (H1 & H2 & H3 & _).
             assert (length (x :: its) <= length items) by (rewrite <- Et; destruct items; cbn; lia).
             split; [exact H1|split; [exact H2|]]; unfold weight in *; cbn [da_new da_old da_items concat length app] in *; split; [lia|intros _; left; lia].
        * destruct (tl items) as [|x its] eqn:Et; [injection E as <-|].
          -- split; [apply Permutation_refl|split; [reflexivity|]]; unfold weight; cbn [da_new da_old da_items concat length app]; split; [lia|intros _; left; lia].
          -- destruct (IH None (mkDa r (x :: its) rest' rest) s' I E) as (H1 & H2 & H3 & _).
             assert (length (x :: its) <= length items) by (rewrite <- Et; destruct items; cbn; lia).
             split; [exact H1|split; [exact H2|]]; unfold weight in *; cbn [da_new da_old da_items concat length app] in *; split; [lia|intros _; left; lia].
        * rewrite (gv_eq gvc) in E; destruct (Hpush _ _ _ _ E) as (H1 & H2 & H3).
          split; [|split; [exact H2|]].
          -- eapply post_perm; [|exact H1].
             unfold rem; cbn [da_new da_old concat app flat_map pend].
             rewrite Permutation_app_swap_app; reflexivity.
          -- unfold weight at 2 4; cbn [da_new da_old da_items concat length app] in *; rewrite sizes_cons; split; [lia|intros _; left; lia].
    - (* a child of a new node *)
      rewrite (gv_eq gvc) in E; destruct (Hpush _ _ _ _ E) as (H1 & H2 & H3).
      assert (Hpe : pend p = []).
      { destruct p as [n|]; [|reflexivity]; destruct Hp as (it & nw & _ & Hnew); injection Hnew as Hk _; exact (lk_kids' _ _ _ (eq_sym Hk)). }
      split; [|split; [exact H2|]].
      + rewrite Hpe; unfold rem; cbn [da_new da_old concat app flat_map]; cbn [concat app flat_map] in H1; rewrite <- app_assoc; exact H1.
      + unfold weight at 2 4; cbn [da_new da_old da_items concat length app] in *; rewrite sizes_cons; split; [lia|intros _; left; lia].
  Qed.

  Definition Rem (s : daleaves Nd V) : list Nd := flat_map lv (opt_list (da_root s)) ++ rem s.
  Definition Weight (s : daleaves Nd V) : nat := 3 * sizes (opt_list (da_root s)) + weight s.

  (** One call. *)
  Definition called (s : daleaves Nd V) (o : option (list V)) (s' : daleaves Nd V) : Prop :=
    match o with
    | None => Permutation (Rem s) (Rem s')
    | Some l => exists n l0, l = l0 ++ [nval gvc n] /\ Permutation (Rem s) (n :: Rem s')
    end /\ (Rem s <> [] -> Weight s' < Weight s).

  Lemma da_call f s o s' : daleaves_next gvc f s = Ok (o, s') -> called s o s'.
  Proof.
    unfold daleaves_next; destruct (daleaves_advance gvc f s) as [s1| | |] eqn:E; try discriminate; cbn [bindR].
    intros E'; injection E' as <- <-; unfold daleaves_advance in E.
    assert (Hget : forall T, post_st T s1 -> da_root s1 = None ->
      match daleaves_get s1 with
      | None => Permutation T (Rem s1)
      | Some l => exists n l0, l = l0 ++ [nval gvc n] /\ Permutation T (n :: Rem s1)
      end).
    { unfold post_st, daleaves_get, Rem; intros T H ->; cbn [opt_list flat_map app]; destruct (da_items s1) as [|x it]; [exact H|].
      destruct H as (n & -> & H); exists n, (rev it); split; [reflexivity|exact H]. }
    destruct s as [r items old new]; cbn [da_root da_items da_old da_new] in E; destruct r as [n|].
    - rewrite (gv_eq gvc) in E.
      destruct (da_loop f (Some n) (mkDa None (nval gvc n :: items) old (kids n :: new)) s1) as (H1 & H2 & H3 & _);
        [eexists _, _; split; reflexivity|exact E|].
      split.
      + apply Hget; [|exact H2]; eapply post_perm; [|exact H1].
        unfold Rem, rem; cbn [da_root da_new da_old opt_list flat_map concat pend].
        rewrite app_nil_r, lv_unfold, flat_map_app, <- !app_assoc; reflexivity.
      + intros _; unfold Weight; rewrite H2; unfold weight in H3 at 2; unfold weight at 2;
          cbn [da_root da_new da_old da_items opt_list concat length] in *.
        rewrite sizes_app in H3; change (sizes [n]) with (size n + 0); change (sizes []) with 0; rewrite (size_unfold gvc nt Hnt); lia.
    - destruct (da_loop f None (mkDa None (tl items) old new) s1 I E) as (H1 & H2 & H3 & H4); split.
      + apply Hget; [exact H1|exact H2].
      + intros Hne; unfold Weight; rewrite H2; cbn [da_root opt_list]; change (sizes []) with 0.
        destruct (H4 eq_refl) as [H|[Hn Ho]].
        * assert (weight (mkDa None (tl items) old new) <= weight (mkDa (@None Nd) items old new)).
          { unfold weight; cbn [da_new da_old da_items]; destruct items; cbn; lia. }
          lia.
        * cbn in Hn, Ho; subst; exfalso; apply Hne; reflexivity.
  Qed.

  Lemma lasts_some l0 (x : V) os : lasts (Some (l0 ++ [x]) :: os) = x :: lasts os.
  Proof. unfold lasts; cbn; rewrite rev_app_distr; reflexivity. Qed.

  Lemma da_calls_rem k : forall f s os s', calls (daleaves_next gvc) k s f = Ok (os, s') ->
    Permutation (map (nval gvc) (Rem s)) (lasts os ++ map (nval gvc) (Rem s')).
  Proof.
    induction k as [|k IH]; intros f s os s' E; cbn in E; [injection E as <- <-; reflexivity|].
    destruct (daleaves_next gvc f s) as [[o s1]| | |] eqn:En; try discriminate; cbn in E.
    destruct (calls (daleaves_next gvc) k s1 f) as [[os1 s2]| | |] eqn:Ec; try discriminate; cbn in E.
    injection E as <- <-; apply IH in Ec; apply da_call in En as [Hp _].
    destruct o as [l|].
    - destruct Hp as (n & l0 & -> & Hp); rewrite lasts_some; cbn [app].
      etransitivity; [apply Permutation_map; exact Hp|]; cbn [map]; constructor; exact Ec.
    - etransitivity; [apply Permutation_map; exact Hp|exact Ec].
  Qed.

  Lemma da_drain m : forall s, Weight s <= m -> exists K, forall j, K <= j ->
    exists os s', calls (daleaves_next gvc) j s ⇓ Ok (os, s') /\ Rem s' = [].
  Proof.
    assert (H0 : forall s, Rem s = [] -> exists K, forall j, K <= j ->
      exists os s', calls (daleaves_next gvc) j s ⇓ Ok (os, s') /\ Rem s' = []).
    { intros s Hs; exists 0; intros j _.
      destruct (da_calls_total gvc nt Hnt j s) as (os & s' & [F HF]); exists os, s'; split; [exists F; exact HF|].
      pose proof (da_calls_rem _ _ _ _ _ (HF F (le_n F))) as Hp; rewrite Hs in Hp; cbn in Hp.
      apply Permutation_nil, app_eq_nil in Hp as [_ Hp]; apply map_eq_nil in Hp; exact Hp. }
    assert (Hstep : forall s, Rem s = [] \/ exists o s1, (fun f => daleaves_next gvc f s) ⇓ Ok (o, s1) /\ Weight s1 < Weight s).
    { intros s; destruct (Rem s) eqn:Er; [left; reflexivity|right].
      destruct (da_next_total gvc nt Hnt s) as (o & s1 & [F HF]); exists o, s1; split; [exists F; exact HF|].
      apply (da_call F s o s1 (HF F (le_n F))); rewrite Er; discriminate. }
    induction m as [|m IH]; intros s Hm; (destruct (Hstep s) as [Hs|(o & s1 & Hn & Hw)]; [apply H0, Hs|]); [lia|].
    destruct (IH s1 ltac:(lia)) as [K HK]; exists (S K); intros [|j] Hj; [lia|].
    destruct (HK j ltac:(lia)) as (os & s' & Hc & Hr); exists (o :: os), s'; split; [eapply calls_S; eauto|exact Hr].
  Qed.

  (** Every leaf that is left is reported once, whatever the state. *)
  Lemma da_all s : exists K, forall j, K <= j ->
    exists os s', calls (daleaves_next gvc) j s ⇓ Ok (os, s') /\ Permutation (lasts os) (map (nval gvc) (Rem s)).
  Proof.
    destruct (da_drain _ s (le_n _)) as [K HK]; exists K; intros j Hj.
    destruct (HK j Hj) as (os & s' & [F HF] & Hr); exists os, s'; split; [exists F; exact HF|].
    pose proof (da_calls_rem _ _ _ _ _ (HF F (le_n F))) as Hp; rewrite Hr, app_nil_r in Hp; symmetry; exact Hp.
  Qed.

  (** ** What is left in a used preorder iterator *)
  Definition subs (l : list Nd) : list Nd := flat_map (fun n => preorder (nt n)) l.
  Lemma lv_subs l : filter leaf (subs l) = flat_map lv l.
  Proof. apply filter_flat_map. Qed.
  Lemma sub_unfold n : preorder (nt n) = n :: subs (kids n).
  Proof.
    rewrite (nt_unfold _ _ Hnt); cbn [preorder]; f_equal; unfold subs.
    rewrite flat_map_concat_map, map_map, <- flat_map_concat_map; reflexivity.
  Qed.

  Definition prea_G (s : prea Nd V) (ns : list Nd) : Prop := ns = subs (opt_list (pa_root s) ++ concat (pa_stack s)).

  Lemma prea_loop_G f : forall stack items o stack' items',
    loop (@prea_body Nd V) f (stack, items) = Ok (o, stack', items') -> concat stack = opt_list o ++ concat stack' /\ (o = None -> concat stack' = []).
  Proof.
    induction f as [|f IH]; intros stack items o stack' items' E; cbn in E; [discriminate|].
    destruct stack as [|[|c top] rest]; cbn in E.
    - injection E as <- <- <-; split; reflexivity.
    - exact (IH _ _ _ _ _ E).
    - injection E as <- <- <-; split; [reflexivity|discriminate].
  Qed.

  Lemma prea_G_step f s ns o s' : prea_G s ns -> prea_next gvc f s = Ok (o, s') -> prea_G s' (tl ns).
  Proof.
    unfold prea_G, prea_next, prea_advance; intros ->; destruct s as [[n|] stack items]; cbn [pa_root pa_stack pa_items].
    - rewrite (gv_eq gvc); cbn; intros E; injection E as _ <-; cbn [pa_root pa_stack opt_list app concat].
      unfold subs at 1; cbn [flat_map]; rewrite sub_unfold; cbn [tl app]; unfold subs; rewrite flat_map_app; reflexivity.
    - destruct (loop prea_body f (stack, items)) as [[[on st] it]| | |] eqn:El; try discriminate; cbn [bindR].
      destruct (prea_loop_G _ _ _ _ _ _ El) as [E1 E2]; cbn [opt_list app]; rewrite E1.
      destruct on as [c|]; [rewrite (gv_eq gvc)|]; cbn; intros E; injection E as _ <-; cbn [pa_root pa_stack opt_list app concat].
      + unfold subs at 1; cbn [flat_map]; rewrite sub_unfold; cbn [tl app]; unfold subs; rewrite flat_map_app; reflexivity.
      + rewrite (E2 eq_refl); reflexivity.
  Qed.

  Lemma prea_left n k s : after (prea_next gvc) k (prea_new n) s ->
    Rem (prea_leaves s) = filter leaf (skipn k (preorder (nt n))).
  Proof.
    intros Ha.
    assert (H0 : prea_G (prea_new n) (preorder (nt n))) by (unfold prea_G, subs; cbn; rewrite app_nil_r; reflexivity).
    pose proof (tail_run _ _ prea_G_step _ _ _ _ H0 Ha) as HG; unfold prea_G in HG; rewrite HG, lv_subs.
    unfold Rem, rem, prea_leaves; cbn [da_root da_new da_old concat flat_map app]; rewrite flat_map_app; reflexivity.
  Qed.

  (** ** ... in a used postorder iterator *)
  Definition posts (l : list Nd) : list Nd := flat_map (fun n => postorder (nt n)) l.
  Fixpoint pout (stack : list (list Nd)) (anc : list Nd) : list Nd :=
    match stack, anc with
    | top :: stack', a :: anc' => posts top ++ a :: pout stack' anc'
    | _, _ => []
    end.
  Definition pst (stack : list (list Nd)) (ns : list Nd) : Prop :=
    exists anc, Forall (fun a => leaf a = false) anc /\ length anc = length stack /\ ns = pout stack anc.
  Definition posta_G (s : post_iter Nd V) (ns : list Nd) : Prop :=
    match po_root s with Some n => po_stack s = [] /\ ns = postorder (nt n) | None => pst (po_stack s) ns end.

  Lemma post_unfold n : postorder (nt n) = posts (kids n) ++ [n].
  Proof.
    rewrite (nt_unfold _ _ Hnt); cbn [postorder]; unfold posts.
    rewrite flat_map_concat_map, map_map, <- flat_map_concat_map; reflexivity.
  Qed.

  Lemma posta_down_G n : forall f stack anc items items' stack', Forall (fun a => leaf a = false) anc -> length anc = length stack ->
    loop (posta_body gvc) f (items, kids n :: stack) = Ok (items', stack') -> pst stack' (tl (postorder (nt n)) ++ pout stack anc).
  Proof.
    induction n as [n IH] using (node_ind gvc nt Hnt); intros f stack anc items items' stack' Ha Hlen E.
    rewrite post_unfold; destruct f as [|f]; [discriminate|]; cbn in E.
    destruct (kids n) as [|c cs] eqn:Ek.
    - injection E as <- <-; exists anc; auto.
    - inversion IH as [|? ? IHc _]; subst.
      rewrite (gv_eq gvc) in E; specialize (IHc f (cs :: stack) (n :: anc) _ _ _ ltac:(constructor; [unfold is_leaf; rewrite Ek; reflexivity|exact Ha]) ltac:(cbn; lia) E).
      cbn [pout] in IHc.
      replace (tl (posts (c :: cs) ++ [n]) ++ pout stack anc) with (tl (postorder (nt c)) ++ posts cs ++ n :: pout stack anc); [exact IHc|].
      unfold posts at 2; cbn [flat_map]; fold (posts cs); rewrite post_unfold.
      destruct (posts (kids c)); cbn; rewrite <- !app_assoc; reflexivity.
  Qed.

  Lemma posta_G_step f s ns o s' : posta_G s ns -> posta_next gvc f s = Ok (o, s') -> posta_G s' (tl ns).
  Proof.
    unfold posta_G, posta_next, posta_advance; destruct s as [[n|] items stack]; cbn [po_root po_stack po_items].
    - intros [-> ->]; rewrite (gv_eq gvc).
      destruct (loop (posta_body gvc) f _) as [[it st]| | |] eqn:El; try discriminate; cbn; intros E; injection E as _ <-; cbn.
      apply (posta_down_G n _ [] [] _ _ _ (Forall_nil _) eq_refl) in El; cbn in El; rewrite app_nil_r in El; exact El.
    - intros (anc & Ha & Hlen & ->).
      destruct (loop (posta_body gvc) f _) as [[it st]| | |] eqn:El; try discriminate; cbn; intros E; injection E as _ <-; cbn.
      destruct f as [|f]; [discriminate|]; cbn in El.
      destruct stack as [|[|c top] rest].
      + injection El as <- <-; exists []; repeat split; constructor.
      + injection El as <- <-; destruct anc as [|a anc]; [discriminate|].
        injection Hlen as Hlen; inversion Ha; subst; exists anc; auto.
      + destruct anc as [|a anc]; [discriminate|]; rewrite (gv_eq gvc) in El.
        apply (posta_down_G c _ (top :: rest) (a :: anc) _ _ _ Ha Hlen) in El; cbn [pout] in *.
        replace (tl (posts (c :: top) ++ a :: pout rest anc)) with (tl (postorder (nt c)) ++ posts top ++ a :: pout rest anc); [exact El|].
        unfold posts at 2; cbn [flat_map]; fold (posts top); rewrite post_unfold.
        destruct (posts (kids c)); cbn; rewrite <- ?app_assoc; reflexivity.
  Qed.

  Lemma post_lv : forall n, filter leaf (postorder (nt n)) = lv n.
  Proof.
    refine (node_ind gvc nt Hnt _ _); intros n IH; rewrite post_unfold, lv_unfold, filter_app; cbn [filter].
    assert (E : filter leaf (posts (kids n)) = flat_map lv (kids n)).
    { unfold posts; rewrite filter_flat_map; induction IH as [|c cs Hc _ IHcs]; cbn; [reflexivity|]; rewrite Hc, IHcs; reflexivity. }
    rewrite E; unfold lk; destruct (leaf n) eqn:El; [|rewrite app_nil_r; reflexivity].
    unfold is_leaf in El; destruct (kids n); [reflexivity|discriminate].
  Qed.
  Lemma posts_lv l : filter leaf (posts l) = flat_map lv l.
  Proof. unfold posts; rewrite filter_flat_map; apply flat_map_ext; exact post_lv. Qed.

  Lemma pout_lv stack : forall anc, Forall (fun a => leaf a = false) anc -> length anc = length stack ->
    filter leaf (pout stack anc) = flat_map lv (concat stack).
  Proof.
    induction stack as [|top stack IH]; intros [|a anc] Ha Hlen; try discriminate; cbn [pout concat]; [reflexivity|].
    inversion Ha as [|? ? H1 H2]; subst; injection Hlen as Hlen.
    rewrite filter_app; cbn [filter]; rewrite H1, flat_map_app, posts_lv, (IH anc H2 Hlen); reflexivity.
  Qed.

  Lemma posta_left n k s : after (posta_next gvc) k (post_new n) s ->
    Rem (posta_leaves s) = filter leaf (skipn k (postorder (nt n))).
  Proof.
    intros Ha.
    assert (H0 : posta_G (post_new n) (postorder (nt n))) by (split; reflexivity).
    pose proof (tail_run _ _ posta_G_step _ _ _ _ H0 Ha) as HG; unfold posta_G in HG.
    unfold Rem, rem, posta_leaves; cbn [da_root da_new da_old concat flat_map app].
    destruct (po_root s) as [m|].
    - destruct HG as [-> ->]; cbn; rewrite !app_nil_r, post_lv; reflexivity.
    - destruct HG as (anc & H1 & H2 & ->); cbn; symmetry; apply pout_lv; auto.
  Qed.
End Leaves.

(** ** ... in a used inorder iterator *)
Section InLeft.
  Context {Nd V : Type} (gvcb : Nd -> V * (option Nd * option Nd)) (bt : Nd -> btree Nd).
  Hypothesis Hbt : node_btree gvcb bt.
  Local Notation leaf := (is_leaf (binary_gvc gvcb)).
  Local Notation ino n := (inorder (bt n)).

  Definition inoo (o : option Nd) : list Nd := match o with Some n => ino n | None => [] end.
  Lemma ino_unfold n : ino n = inoo (nleft gvcb n) ++ n :: inoo (nright gvcb n).
  Proof. rewrite (bt_unfold _ _ Hbt) at 1; cbn [inorder]; destruct (nleft gvcb n), (nright gvcb n); reflexivity. Qed.

  Definition fr : Type := (Nd * status)%type.
  Definition rts (fs : list fr) : list (option Nd) :=
    flat_map (fun '(n, st) => match st with WentRight => [] | _ => [nright gvcb n] end) fs.
  Definition out1 (p : fr) : list Nd :=
    match snd p with WentLeft => fst p :: inoo (nright gvcb (fst p)) | ReturnedSelf => inoo (nright gvcb (fst p)) | WentRight => [] end.
  Definition wf (fs : list fr) : Prop := Forall (fun p => snd p = WentLeft -> nleft gvcb (fst p) <> None) fs.
  Definition is_st (fs : list fr) (s : ina Nd V) : Prop := ia_right s = rts fs /\ ia_status s = map snd fs.

  Lemma ina_find_G f : forall fs s r, wf fs -> is_st fs s -> loop ina_find_body f s = Ok r ->
    match r with
    | Return s' => exists fs', wf fs' /\ is_st fs' s' /\ flat_map out1 fs' = tl (flat_map out1 fs)
    | Descend n s' => exists fs', wf fs' /\ is_st fs' s' /\ flat_map out1 fs = ino n ++ flat_map out1 fs'
    end.
  Proof.
    induction f as [|f IH]; intros fs [rs items st] r Hw [Hr Hs] E; cbn in Hr, Hs, E; [discriminate|]; subst.
    destruct fs as [|[n [| |]] fs]; cbn [map snd rts flat_map app] in E.
    - injection E as <-; exists []; repeat split; constructor.
    - injection E as <-; exists ((n, ReturnedSelf) :: fs); split; [|split; [split; reflexivity|reflexivity]].
      inversion Hw; subst; constructor; [discriminate|assumption].
    - inversion Hw as [|? ? _ Hw']; subst; assert (Hw2 : wf ((n, WentRight) :: fs)) by (constructor; [discriminate|assumption]).
      cbn in E; destruct (nright gvcb n) as [c|] eqn:Er; cbn in E.
      + injection E as <-; exists ((n, WentRight) :: fs); split; [exact Hw2|split; [split; reflexivity|]].
        cbn [flat_map out1 fst snd]; rewrite Er; reflexivity.
      + pose proof (fun H => IH ((n, WentRight) :: fs) _ r Hw2 H E) as IH'; specialize (IH' (conj eq_refl eq_refl)).
        cbn [flat_map out1 fst snd] in *; rewrite Er; exact IH'.
    - inversion Hw as [|? ? _ Hw']; subst; cbn in E.
      refine (IH fs _ r Hw' _ E); split; reflexivity.
  Qed.

  Lemma ina_descend_G f : forall m fs s s', wf fs -> is_st ((m, WentLeft) :: fs) s ->
    loop (ina_descend_body gvcb) f (nleft gvcb m, s) = Ok s' ->
    exists m' fs', wf fs' /\ is_st ((m', WentLeft) :: fs') s' /\
      inoo (nleft gvcb m) ++ m :: inoo (nright gvcb m) ++ flat_map out1 fs = m' :: inoo (nright gvcb m') ++ flat_map out1 fs'.
  Proof.
    induction f as [|f IH]; intros m fs s s' Hw Hs E; cbn in E; [discriminate|].
    destruct (nleft gvcb m) as [c|] eqn:El; cbn in E.
    - rewrite (gvcb_eq gvcb) in E; cbn in E.
      destruct Hs as [Hr Hst]; rewrite Hr, Hst in E.
      assert (Hw2 : wf ((m, WentLeft) :: fs)) by (constructor; [cbn; rewrite El; discriminate|assumption]).
      edestruct (IH c ((m, WentLeft) :: fs)) as (m' & fs' & H1 & H2 & H3); [exact Hw2| |exact E|]; [split; reflexivity|].
      exists m', fs'; split; [exact H1|split; [exact H2|]]; rewrite <- H3; cbn [inoo flat_map out1 fst snd]; rewrite ino_unfold, <- !app_assoc; cbn [app]; rewrite <- ?app_assoc; reflexivity.
    - injection E as <-; exists m, fs; auto.
  Qed.

  Definition ina_G (s : ina Nd V) (ns : list Nd) : Prop :=
    (exists n, s = ina_new n /\ ns = ino n) \/ (exists fs, wf fs /\ is_st fs s /\ ns = flat_map out1 fs).

  Lemma ina_after_descend f n fs s s2 st : wf fs -> is_st fs s -> loop (ina_descend_body gvcb) f (Some n, s) = Ok s2 ->
    set_returned (ia_status s2) = Ok st ->
    exists fs', wf fs' /\ is_st fs' (mkIna (ia_right s2) (ia_items s2) st) /\ flat_map out1 fs' = tl (ino n ++ flat_map out1 fs).
  Proof.
    intros Hw [Hr Hs] E Est; destruct f as [|f]; [discriminate|]; cbn in E; rewrite (gvcb_eq gvcb) in E; cbn in E.
    rewrite Hr, Hs in E.
    edestruct (ina_descend_G f n fs) as (m & fs' & H1 & [H2 H2'] & H3); [exact Hw| |exact E|]; [split; reflexivity|].
    rewrite H2' in Est; cbn in Est; injection Est as <-.
    exists ((m, ReturnedSelf) :: fs'); split; [constructor; [discriminate|exact H1]|split].
    - split; [rewrite H2; reflexivity|reflexivity].
    - rewrite ino_unfold, <- app_assoc; cbn [app]; rewrite H3; reflexivity.
  Qed.

  Lemma ina_G_step f s ns o s' : ina_G s ns -> ina_next gvcb f s = Ok (o, s') -> ina_G s' (tl ns).
  Proof.
    unfold ina_next, ina_advance; intros HG.
    destruct (loop ina_find_body f s) as [r| | |] eqn:El; try discriminate; cbn [bindR].
    assert (Hd : forall n s1 fs, wf fs -> is_st fs s1 -> ns = ino n ++ flat_map out1 fs ->
      bindR (bindR (loop (ina_descend_body gvcb) f (Some n, s1)) (fun s'' =>
        st <- set_returned (ia_status s'') ;; Ok (mkIna (ia_right s'') (ia_items s'') st))) (fun s' => Ok (ina_get s', s')) = Ok (o, s') ->
      ina_G s' (tl ns)).
    { intros n s1 fs Hw Hs -> E.
      destruct (loop (ina_descend_body gvcb) f (Some n, s1)) as [s2| | |] eqn:Ed; try discriminate; cbn [bindR] in E.
      destruct (set_returned (ia_status s2)) as [st| | |] eqn:Est; try discriminate; cbn [bindR] in E; injection E as _ <-.
      destruct (ina_after_descend _ _ _ _ _ _ Hw Hs Ed Est) as (fs' & H1 & H2 & H3).
      right; exists fs'; split; [exact H1|split; [exact H2|symmetry; exact H3]]. }
    destruct HG as [(n & -> & ->)|(fs & Hw & Hs & ->)].
    - destruct f as [|f]; [discriminate|]; cbn in El; injection El as <-.
      apply (Hd n _ []); [constructor|split; reflexivity|rewrite app_nil_r; reflexivity].
    - pose proof (ina_find_G _ _ _ _ Hw Hs El) as HF; destruct r as [s1|n s1].
      + destruct HF as (fs' & H1 & H2 & H3); cbn [bindR]; intros E; injection E as _ <-.
        right; exists fs'; split; [exact H1|split; [exact H2|symmetry; exact H3]].
      + destruct HF as (fs' & H1 & H2 & H3); apply (Hd n s1 fs' H1 H2 H3).
  Qed.

  Context (Hnt : node_tree (binary_gvc gvcb) (fun n => flat (bt n))).
  Local Notation lv := (lv (binary_gvc gvcb) (fun n => flat (bt n))).

  Lemma bleaf_kids n : leaf n = match nleft gvcb n, nright gvcb n with None, None => true | _, _ => false end.
  Proof.
    unfold is_leaf; change (nkids (binary_gvc gvcb) n) with (snd (binary_gvc gvcb n)); unfold binary_gvc; rewrite (gvcb_eq gvcb); cbn.
    destruct (nleft gvcb n), (nright gvcb n); reflexivity.
  Qed.

  Lemma ino_lv : forall n, filter leaf (ino n) = lv n.
  Proof.
    refine (bnode_ind gvcb bt Hbt _ _); intros n IHl IHr.
    rewrite (lv_unfold _ _ Hnt), ino_unfold, filter_app; cbn [filter]; unfold lk; rewrite bleaf_kids.
    assert (Ek : nkids (binary_gvc gvcb) n = opt_list (nleft gvcb n) ++ opt_list (nright gvcb n)).
    { change (nkids (binary_gvc gvcb) n) with (snd (binary_gvc gvcb n)); unfold binary_gvc; rewrite (gvcb_eq gvcb); cbn.
      destruct (nleft gvcb n), (nright gvcb n); reflexivity. }
    rewrite Ek, flat_map_app.
    destruct (nleft gvcb n) as [l|], (nright gvcb n) as [r|]; cbn [inoo opt_list flat_map filter app OForall] in *;
      rewrite ?app_nil_r, ?IHl, ?IHr; reflexivity.
  Qed.

  Lemma out_lv fs : wf fs -> filter leaf (flat_map out1 fs) = flat_map lv (concat (map opt_list (rts fs))).
  Proof.
    intros H; induction H as [|[n st] fs Hn H IH]; [reflexivity|].
    cbn [flat_map]; rewrite filter_app, IH.
    assert (Eo : forall o, filter leaf (inoo o) = flat_map lv (opt_list o)).
    { intros [c|]; [|reflexivity]; cbn; rewrite ino_lv, app_nil_r; reflexivity. }
    destruct st; cbn [out1 fst snd rts flat_map app map concat filter] in *.
    - rewrite bleaf_kids; destruct (nleft gvcb n); [|exfalso; apply Hn; reflexivity].
      rewrite flat_map_app, Eo; reflexivity.
    - rewrite flat_map_app, Eo; reflexivity.
    - reflexivity.
  Qed.

  Lemma ina_left n k s : after (ina_next gvcb) k (ina_new n) s ->
    Rem (binary_gvc gvcb) (fun n => flat (bt n)) (ina_leaves s) = filter leaf (skipn k (ino n)).
  Proof.
    intros Ha.
    assert (H0 : ina_G (ina_new n) (ino n)) by (left; exists n; auto).
    pose proof (tail_run _ _ ina_G_step _ _ _ _ H0 Ha) as HG.
    assert (Hl : Rem (binary_gvc gvcb) (fun n => flat (bt n)) (ina_leaves s) = flat_map lv (concat (map opt_list (ia_right s)))).
    { unfold ina_leaves, Rem, rem; destruct (ia_right s) as [|r [|r' rs]]; cbn [da_root da_new da_old opt_list flat_map concat app map]; [reflexivity| |reflexivity].
      rewrite !app_nil_r; reflexivity. }
    rewrite Hl; destruct HG as [(m & -> & E)|(fs & Hw & [Hr _] & E)]; rewrite E.
    - cbn; rewrite app_nil_r, ino_lv; reflexivity.
    - rewrite Hr, out_lv by exact Hw; reflexivity.
  Qed.
End InLeft.
