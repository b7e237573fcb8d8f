(** * ProofsPipeColl: trees, fold_trees and fold_path at the end of a pipeline over a collection. *)
From Verif Require Import Prelim PrelimFacts Spec SpecFacts SpecPipe SpecPipeColl SpecObs ModelNode NodeFacts ModelPre ModelPipe ModelPipeColl
  ProofsPlain Slots PipeCore PipeBase PipeChain PipeEnd ProofsPipe PipeFinal PipeCollBase PipeCollEnd.

(** ** A property of all nodes still to come *)
Lemma vstep_keeps {G X A} (vis : G -> X -> G * outcome A) (Q : X -> Prop) todo : forall g o d r g',
  vstep vis g todo = (o, d, r, g') -> Forall Q (flat_map preorder todo) ->
  Forall Q (flat_map preorder (d ++ r)) /\ forall a x, o = Some (a, x) -> Q x.
Proof.
  induction todo as [|[x ts] todo IH]; intros g o d r g' E HQ; cbn in E.
  - injection E as <- <- <- <-; split; [constructor|discriminate].
  - cbn [flat_map preorder app] in HQ; inversion HQ as [|? ? Hx HQ']; subst; apply Forall_app in HQ' as [H1 H2].
    destruct (vis g x) as [g1 [|a down]]; [apply (IH _ _ _ _ _ E H2)|].
    injection E as <- <- <- <-; split; [|intros b y E; injection E as <- <-; exact Hx].
    rewrite flat_map_app; apply Forall_app; split; [destruct down; [exact H1|constructor]|exact H2].
Qed.

Lemma simulates_keeps {A G X} (P : pipe A) (vis : G -> X -> G * outcome A) pok R (Q : X -> Prop) : simulates P vis pok R ->
  simulates P vis (fun p x => pok p x /\ Q x) (fun s g d r => R s g d r /\ Forall Q (flat_map preorder (d ++ r))).
Proof.
  intros [H1 H2 H3]; split.
  - intros s g d r [HR HQ] o d' r' g' E; destruct (H1 _ _ _ _ HR _ _ _ _ E) as (s' & Hc & HR' & Hp).
    destruct (vstep_keeps _ _ _ _ _ _ _ _ E HQ) as [HQ' Hx].
    exists s'; split; [exact Hc|split; [split; assumption|]]; intros a x Eo; split; [eapply Hp|eapply Hx]; exact Eo.
  - intros s g d r [HR HQ]; split; [eapply H2; exact HR|].
    rewrite flat_map_app in HQ; apply Forall_app in HQ as [_ HQ]; exact HQ.
  - exact H3.
Qed.

(** ** Paths of a collection start with the index of the tree *)
Definition rooted {Nd} (x : pos Nd) : Prop := pos_path x <> [].
Definition pok_exact1 {Nd} (p : list N) (x : pos Nd) : Prop := pok_exact p x /\ rooted x.
Definition pok_len1 {Nd} (p : list N) (x : pos Nd) : Prop := pok_len p x /\ rooted x.
Definition cdepth {Nd} (x : pos Nd) : nat := pred (length (pos_path x)).

Lemma pok_exact1_facts {Nd} (p : list N) (x : pos Nd) : pok_exact1 p x -> p = xpath x /\ pok_len1 p x.
Proof. intros [Hp Hr]; destruct (pok_exact_facts _ _ Hp); split; [assumption|split; assumption]. Qed.
Lemma coll_depth_ok {Nd} (p : list N) (x : pos Nd) : pok_len1 p x -> coll_depth p = Ok (N.of_nat (cdepth x)).
Proof.
  unfold pok_len1, pok_len, rooted, cdepth; intros [El Hr]; rewrite <- El.
  destruct p; [destruct (pos_path x); [congruence|discriminate]|reflexivity].
Qed.
Lemma pok_len1_facts {Nd} (p : list N) (x : pos Nd) : pok_len1 p x ->
  coll_depth p = Ok (N.of_nat (cdepth x)) /\ forall q, length q = length p -> pok_len1 q x.
Proof.
  intros H; split; [apply coll_depth_ok; exact H|]; destruct H as [El Hr]; unfold pok_len1, pok_len in *; intros q Eq; split; congruence.
Qed.
Lemma pok_len1_S {Nd} (p : list N) (x : pos Nd) : pok_len1 p x -> length p = S (cdepth x).
Proof.
  unfold pok_len1, pok_len, rooted, cdepth; intros [-> Hr]; destruct (pos_path x); [congruence|reflexivity].
Qed.

Lemma annotate_prefix {A} (t : tree A) p ab x : In x (preorder (annotate p ab t)) -> exists q, pos_path x = p ++ q.
Proof. intros Hx; destruct (annotate_indexes t p ab x Hx) as (q & E & _); eauto. Qed.

Lemma below_cdepth {A Nd} (t : tree (A * pos Nd)) : forall p, below p t -> p <> [] -> depth_ok cdepth (pred (length p)) t.
Proof.
  induction t as [[a x] ts IH] using tree_ind'; intros p H Hn; apply below_node in H as [H1 H2].
  apply depth_ok_node; split; [unfold cdepth; rewrite H1; reflexivity|].
  rewrite Forall_forall in *; intros t Ht; destruct (H2 t Ht) as (i & Hi).
  specialize (IH t Ht _ Hi); rewrite app_length in IH; cbn [length] in IH.
  replace (S (pred (length p))) with (pred (length p + 1)) by (destruct p; [congruence|cbn; lia]).
  apply IH; destruct p; discriminate.
Qed.

Lemma walk_list_ext_in {G X A} (v v' : G -> X -> G * outcome A) ts :
  (forall g x, In x (flat_map preorder ts) -> v g x = v' g x) -> forall g, walk_list (walk v) g ts = walk_list (walk v') g ts.
Proof.
  induction ts as [|t ts IH]; intros H g; [reflexivity|]; rewrite !walk_list_cons.
  rewrite (walk_ext_in v v') by (intros; apply H; cbn; apply in_or_app; auto).
  destruct (walk v' g t); rewrite IH by (intros; apply H; cbn; apply in_or_app; auto); reflexivity.
Qed.

(** What [Dn] has to be for [consume_all]. *)
Definition ended {A} (P : pipe A) (Dn : p_state P -> Prop) : Prop :=
  forall i, Dn i -> exists i', (fun f => p_next P f i) ⇓ Ok (None, i') /\ Dn i'.

Lemma sim_ended {A G X} (P : pipe A) (vis : G -> X -> G * outcome A) pok R g : simulates P vis pok R -> ended P (fun i => R i g [] []).
Proof.
  intros H i HR; destruct (sim_next _ _ _ _ H _ _ _ _ HR None [] [] g eq_refl) as (s' & Hc & HR' & _); eauto.
Qed.

Lemma in_mapi {A B} (f : nat -> A -> B) l : forall j y, In y (mapi f j l) -> exists i x, y = f i x /\ In x l /\ j <= i < j + length l.
Proof.
  induction l as [|x l IH]; intros j y; [intros []|]; rewrite mapi_cons; intros [<-|Hy].
  - exists j, x; cbn; repeat split; auto; lia.
  - destruct (IH _ _ Hy) as (i & z & E & Hz & Hi); exists i, z; cbn; repeat split; auto; lia.
Qed.

Section Nary.
  Context {Nd V : Type} (gvc : Nd -> V * list Nd) (nt : Nd -> tree Nd).
  Hypothesis H : node_tree gvc nt.

  Definition all_nodes (trees : list Nd) : list Nd := flat_map (fun n => preorder (nt n)) trees.

  Lemma fsize_each trees : forall j, fsize (mapi (fun i n => annotate [i] [] (nt n)) j trees) = length (all_nodes trees).
  Proof.
    induction trees as [|n trees IH]; intros j; [reflexivity|]; rewrite mapi_cons, fsize_cons, tsize_annotate, IH.
    unfold all_nodes; cbn; rewrite app_length; reflexivity.
  Qed.

  Lemma each_rooted trees : Forall rooted (flat_map preorder (mapi (fun i n => annotate [i] [] (nt n)) 0 trees)).
  Proof.
    apply Forall_forall; intros x Hx; apply in_flat_map in Hx as (t & Ht & Hx).
    destruct (in_mapi _ _ _ _ Ht) as (i & n & -> & _ & _).
    destruct (annotate_prefix _ _ _ _ Hx) as (q & E); unfold rooted; rewrite E; discriminate.
  Qed.

  Lemma each_xpath trees x : small_collection trees -> (N.of_nat (length (all_nodes trees)) <= usize_max)%N ->
    In x (flat_map preorder (mapi (fun i n => annotate [i] [] (nt n)) 0 trees)) -> xpath x = map N.of_nat (pos_path x).
  Proof.
    intros Hc Hb Hx; apply in_flat_map in Hx as (t & Ht & Hx).
    destruct (in_mapi _ _ _ _ Ht) as (i & n & -> & Hn & Hi).
    destruct (annotate_indexes _ _ _ _ Hx) as (q & E & Hq).
    unfold xpath; rewrite E; apply map_ext_in; intros k Hk; apply wrap_small.
    unfold small_collection in Hc; cbn [app] in Hk; destruct Hk as [<-|Hk]; [lia|].
    rewrite Forall_forall in Hq; specialize (Hq _ Hk).
    assert (length (preorder (nt n)) <= length (all_nodes trees)); [|lia].
    clear - Hn; unfold all_nodes; induction trees as [|m trees IH]; [destruct Hn|]; cbn; rewrite app_length.
    destruct Hn as [->|Hn]; [lia|specialize (IH Hn); lia].
  Qed.

  Lemma each_xpath_small trees x : small_collection trees -> Forall (fun n => small_nodes gvc (nt n)) trees ->
    In x (flat_map preorder (mapi (fun i n => annotate [i] [] (nt n)) 0 trees)) -> xpath x = map N.of_nat (pos_path x).
  Proof.
    intros Hc Hs Hx; apply in_flat_map in Hx as (t & Ht & Hx).
    destruct (in_mapi _ _ _ _ Ht) as (i & n & -> & Hn & Hi); rewrite Forall_forall in Hs.
    destruct (small_indexes gvc nt H n (Hs n Hn) _ _ _ Hx) as (q & E & Hq).
    unfold xpath; rewrite E; apply map_ext_in; intros k Hk; apply wrap_small.
    unfold small_collection in Hc; cbn [app] in Hk; destruct Hk as [<-|Hk]; [lia|].
    rewrite Forall_forall in Hq; specialize (Hq _ Hk); cbn in Hq; lia.
  Qed.

  Lemma each_positions_map trees : each_positions (map nt trees) = mapi (fun i n => annotate [i] [] (nt n)) 0 trees.
  Proof. unfold each_positions; rewrite mapi_map; reflexivity. Qed.

  Lemma each_below {G A} (vis : G -> pos Nd -> G * outcome A) trees : forall j g,
    Forall (fun t => exists i, below [i] t) (snd (walk_list (walk (with_node vis)) g (mapi (fun i n => annotate [i] [] (nt n)) j trees))).
  Proof.
    induction trees as [|n trees IH]; intros j g; [constructor|]; rewrite mapi_cons, walk_list_cons.
    pose proof (walk_below vis (nt n) [j] [] g) as Hb; destruct (walk (with_node vis) g (annotate [j] [] (nt n))) as [g1 o].
    specialize (IH (S j) g1); destruct (walk_list _ g1 _) as [g2 os]; cbn [snd] in *.
    apply Forall_app; split; [|exact IH]; destruct o as [t|]; constructor; [exists j; auto|constructor].
  Qed.

  Lemma each_items {A} (c : chain V A) trees : true_paths c = true -> small_collection trees ->
    (has_prune c = true -> (N.of_nat (length (all_nodes trees)) <= usize_max)%N) ->
    let P := each_chain (into_pipeline_each gvc trees) c in
    let w := walk_all (with_node (at_node_each (nval gvc) c)) (clos_init c) (each_positions (map nt trees)) in
    exists Dn, ended P Dn /\ (forall i, Dn i -> closures coll_depth [0%N] (into_pipeline_each gvc trees) c i = fst w) /\
      Forall (fun t => exists i, below [i] t) (snd w) /\
      exists iend, Dn iend /\ items P (if has_prune c then pok_len1 else pok_exact1) (p_init P) (flat_map preorder (snd w)) iend.
  Proof.
    intros Ht Hc Hb P w.
    destruct (nary_coll_sim gvc nt trees H Hc) as (R0 & Hs0 & Hi0).
    destruct (chain_sim (into_pipeline_each gvc trees) coll_depth [0%N] (fun x => nval gvc (pos_here x)) xpath (fun x => N.of_nat (cdepth x)) pok_exact1 pok_len1
      pok_exact1_facts pok_len1_facts _ (simulates_keeps _ _ _ _ rooted Hs0) [] (mapi (fun i n => annotate [i] [] (nt n)) 0 trees)
      (conj Hi0 (each_rooted trees)) c Ht) as (R & HR & Hcl & Hi).
    { intros Hp; cbn [app]; rewrite fsize_each; split; [auto|]; constructor; [|constructor]; rewrite N.add_0_l; auto. }
    assert (Ew : walk_all (with_node (chain_vis (fun x => nval gvc (pos_here x)) xpath (fun x => N.of_nat (cdepth x)) c)) (clos_init c)
                   (mapi (fun i n => annotate [i] [] (nt n)) 0 trees) = w).
    { subst w; rewrite each_positions_map; unfold walk_all; apply walk_list_ext_in.
      intros g x Hx; unfold with_node, chain_vis, at_node_each.
      destruct (has_prune c) eqn:Hp.
      - rewrite (each_xpath trees x Hc) by (auto; apply Hb; reflexivity); reflexivity.
      - rewrite (visit_no_path c Hp g (xpath x) (map N.of_nat (pos_path x))); reflexivity. }
    destruct (sim_items _ _ _ _ HR _ _ _ _ Hi) as (s' & Hit & HR'); cbn [app] in Hit, HR'; rewrite Ew in Hit, HR'.
    exists (fun i => R i (fst w) [] []); split; [eapply sim_ended; exact HR|]; split; [|split].
    - intros i HRi; apply (Hcl _ _ _ _ HRi).
    - subst w; rewrite each_positions_map; apply each_below.
    - exists s'; split; [exact HR'|exact Hit].
  Qed.
End Nary.

Section Binary.
  Context {Nd V : Type} (gvcb : Nd -> V * (option Nd * option Nd)) (bt : Nd -> btree Nd).
  Hypothesis H : node_btree gvcb bt.

  Lemma beach_rooted trees : Forall rooted (flat_map preorder (mapi (fun i n => flat (bannotate [i] [] (bt n))) 0 trees)).
  Proof.
    apply Forall_forall; intros x Hx; apply in_flat_map in Hx as (t & Ht & Hx).
    destruct (in_mapi _ _ _ _ Ht) as (i & n & -> & _ & _).
    destruct (bannotate_indexes _ _ _ _ Hx) as (q & E & _); unfold rooted; rewrite E; discriminate.
  Qed.

  Lemma beach_xpath trees x : small_collection trees ->
    In x (flat_map preorder (mapi (fun i n => flat (bannotate [i] [] (bt n))) 0 trees)) -> xpath x = map N.of_nat (pos_path x).
  Proof.
    intros Hc Hx; apply in_flat_map in Hx as (t & Ht & Hx).
    destruct (in_mapi _ _ _ _ Ht) as (i & n & -> & Hn & Hi).
    destruct (bannotate_indexes _ _ _ _ Hx) as (q & E & Hq).
    unfold xpath; rewrite E; apply map_ext_in; intros k Hk; apply wrap_small.
    unfold small_collection in Hc; cbn [app] in Hk; destruct Hk as [<-|Hk]; [lia|].
    rewrite Forall_forall in Hq; specialize (Hq _ Hk); cbn in Hq; unfold usize_max; lia.
  Qed.

  Lemma each_bpositions_map trees : map flat (each_bpositions (map bt trees)) = mapi (fun i n => flat (bannotate [i] [] (bt n))) 0 trees.
  Proof.
    unfold each_bpositions; rewrite mapi_map; generalize 0 as j; induction trees as [|n trees IH]; intros j; [reflexivity|].
    rewrite !mapi_cons; cbn [map]; rewrite IH; reflexivity.
  Qed.

  Lemma walk_all_flat {G X A} (vis : G -> X -> G * outcome A) ts : forall g,
    walk_all vis g (map flat ts) = (fst (bwalk_all vis g ts), map flat (snd (bwalk_all vis g ts))).
  Proof.
    unfold walk_all; induction ts as [|t ts IH]; intros g; [reflexivity|]; cbn [map bwalk_all]; rewrite walk_list_cons, walk_flat.
    destruct (bwalk vis g t) as [g1 o]; rewrite IH; destruct (bwalk_all vis g1 ts) as [g2 os]; cbn [fst snd].
    rewrite map_app; destruct o; reflexivity.
  Qed.

  Lemma beach_below {G A} (vis : G -> pos Nd -> G * outcome A) trees : forall j g,
    Forall (fun t => exists i, bbelow [i] t) (snd (bwalk_all (with_node vis) g (mapi (fun i t => bannotate [i] [] t) j (map bt trees)))).
  Proof.
    induction trees as [|n trees IH]; intros j g; [constructor|]; cbn [map]; rewrite mapi_cons; cbn [bwalk_all].
    pose proof (bwalk_below vis (bt n) [j] [] g) as Hb; destruct (bwalk (with_node vis) g (bannotate [j] [] (bt n))) as [g1 o].
    specialize (IH (S j) g1); destruct (bwalk_all (with_node vis) g1 _) as [g2 os]; cbn [snd] in *.
    apply Forall_app; split; [|exact IH]; destruct o as [t|]; constructor; [exists j; auto|constructor].
  Qed.

  Lemma beach_items {A} (c : chain V A) trees : small_collection trees ->
    let P := each_chain_binary (into_pipeline_each_binary gvcb trees) c in
    let w := bwalk_all (with_node (at_node_each (nval gvcb) c)) (clos_init c) (each_bpositions (map bt trees)) in
    exists Dn, ended P Dn /\ (forall i, Dn i -> closures_binary coll_depth (into_pipeline_each_binary gvcb trees) c i = fst w) /\
      Forall (fun t => exists i, bbelow [i] t) (snd w) /\
      exists iend, Dn iend /\ items P pok_exact1 (p_init P) (flat_map preorder (map flat (snd w))) iend.
  Proof.
    intros Hc P w.
    destruct (binary_coll_sim gvcb bt trees H Hc) as (R0 & Hs0 & Hi0).
    destruct (bchain_sim (into_pipeline_each_binary gvcb trees) coll_depth (fun x => nval gvcb (pos_here x)) xpath (fun x => N.of_nat (cdepth x)) pok_exact1 pok_len1
      pok_exact1_facts pok_len1_facts _ (simulates_keeps _ _ _ _ rooted Hs0) [] (mapi (fun i n => flat (bannotate [i] [] (bt n))) 0 trees)
      (conj Hi0 (beach_rooted trees)) c) as (R & HR & Hcl & Hi).
    assert (Ew : walk_all (with_node (chain_vis (fun x => nval gvcb (pos_here x)) xpath (fun x => N.of_nat (cdepth x)) c)) (clos_init c)
                   (mapi (fun i n => flat (bannotate [i] [] (bt n))) 0 trees) = (fst w, map flat (snd w))).
    { subst w; rewrite <- walk_all_flat, each_bpositions_map; unfold walk_all; apply walk_list_ext_in.
      intros g x Hx; unfold with_node, chain_vis, at_node_each.
      rewrite (beach_xpath trees x Hc) by exact Hx; reflexivity. }
    destruct (sim_items _ _ _ _ HR _ _ _ _ Hi) as (s' & Hit & HR'); cbn [app] in Hit, HR'; rewrite Ew in Hit, HR'; cbn [fst snd] in Hit, HR'.
    exists (fun i => R i (fst w) [] []); split; [eapply sim_ended; exact HR|]; split; [|split].
    - intros i HRi; apply (Hcl _ _ _ _ HRi).
    - apply beach_below.
    - exists s'; split; [exact HR'|exact Hit].
  Qed.
End Binary.

(** ** The consumers *)
Lemma att_ext {A X St} (top top' : St -> Res St) (push push' : St -> A -> list N -> Res St) (pth : X -> list N) :
  (forall st, top st = top' st) -> (forall st a p, push st a p = push' st a p) ->
  forall t st, att top push pth t st = att top' push' pth t st.
Proof.
  intros Ht Hp; induction t as [[a x] ts IH] using tree_ind'; intros st; rewrite !att_node, Hp.
  destruct (push' st a (pth x)) as [st1| | |]; cbn [bindR]; try reflexivity.
  replace (att_list top push pth ts st1) with (att_list top' push' pth ts st1).
  - destruct (att_list top' push' pth ts st1); cbn [bindR]; auto.
  - revert st1; induction IH as [|t ts Hx _ IHl]; intros st1; [reflexivity|]; cbn [att_list]; rewrite Hx.
    destruct (att top' push' pth t st1); cbn [bindR]; auto.
Qed.
Lemma att_list_ext {A X St} (top top' : St -> Res St) (push push' : St -> A -> list N -> Res St) (pth : X -> list N) :
  (forall st, top st = top' st) -> (forall st a p, push st a p = push' st a p) ->
  forall ts st, att_list top push pth ts st = att_list top' push' pth ts st.
Proof.
  intros Ht Hp; induction ts as [|t ts IH]; intros st; [reflexivity|]; cbn [att_list]; rewrite (att_ext top top' push push') by assumption.
  destruct (att top' push' pth t st); cbn [bindR]; auto.
Qed.

Lemma map_accum_tt {A B} (h : A -> B) l : map_accum (fun (_ : unit) w => (tt, h w)) tt l = (tt, map h l).
Proof. induction l as [|a l IH]; [reflexivity|]; cbn; rewrite IH; reflexivity. Qed.

Section Ends.
  Context {A Nd : Type} (P : pipe A) (pok : list N -> pos Nd -> Prop).
  Hypothesis Hpok : forall p x, pok p x -> pok_len1 p x.
  Context (Dn : p_state P -> Prop).
  Hypothesis Hdone : ended P Dn.
  Notation item := (A * pos Nd)%type.

  Lemma must_len p x (n : nat) : pok p x -> Ok (length p <=? n) = Ok (cdepth x <? n).
  Proof. intros Hp; rewrite (pok_len1_S _ _ (Hpok _ _ Hp)); reflexivity. Qed.
  Lemma must_deeper p x (n : nat) : pok p x -> deeper n p = Ok (cdepth x <? n).
  Proof.
    intros Hp; unfold deeper; rewrite (coll_depth_ok _ _ (Hpok _ _ Hp)); cbn [bindR]; f_equal.
    apply eq_true_iff_eq; rewrite N.ltb_lt, Nat.ltb_lt; lia.
  Qed.

  Lemma below1 (ws : list (tree item)) : Forall (fun t => exists i, below [i] t) ws -> Forall (fun w => depth_ok cdepth 0 w) ws.
  Proof. apply Forall_impl; intros t (i & Hi); apply (below_cdepth t [i] Hi); discriminate. Qed.

  (** *** trees *)
  Lemma trees_all ws iend : Forall (fun t => exists i, below [i] t) ws -> Dn iend ->
    items P pok (p_init P) (flat_map preorder ws) iend ->
    forall k, exists i ahead, calls (trees_next P) k (trees_new P) ⇓
       Ok (map (nth_error (map (tree_map fst) ws)) (seq 0 k), (i, ahead, tt)) /\ (length ws < k -> Dn i).
  Proof.
    intros Hb Hend Hi k.
    destruct (consume_all P pok (fun _ : unit => @nil (tree A)) (fun st path => Ok (length path <=? length st)) is_nil (@trees_close A)
      (fun st item _ => Ok (TNode item [] :: st)) (@length (tree A)) xpath cdepth) with (fl := fun w : tree item => w) (good := fun _ : tree item => True)
      (res := fun (_ : unit) (w : tree item) => (tt, tree_map fst w)) (Dn := Dn) (k := k) (ws := ws) (i := p_init P) (ahead := @None A) (c := tt)
      as (i & ahead & Hc & He).
    - intros p x Hp st; apply must_len; exact Hp.
    - reflexivity.
    - intros st a p st' E; injection E as <-; reflexivity.
    - intros [|p [|[v cs] rest]] st' E; try discriminate; injection E as <-; reflexivity.
    - reflexivity.
    - intros []; reflexivity.
    - intros [|? ?]; [cbn; lia|reflexivity].
    - exact Hdone.
    - intros c [[a x] ts] _; exists a, x, ts, [TNode a []], [TNode a (map (tree_map fst) ts)]; split; [reflexivity|]; split; [reflexivity|]; split.
      + rewrite (att_list_ext _ (@attach_top A) _ (fun st a _ => Ok (TNode a [] :: st))); [exact (collect_att_list ts a [] [])| |reflexivity].
        intros [|p [|[v cs] rest]]; reflexivity.
      + reflexivity.
    - apply Forall_forall; intros; exact I.
    - apply below1; exact Hb.
    - exists iend; split; [exact Hend|]; rewrite map_id; exact Hi.
    - exists i, ahead; split; [|intros Hk; apply He; exact Hk].
      rewrite !map_accum_tt in Hc; cbn [fst snd] in Hc.
      exact Hc.
  Qed.

  (** *** fold_trees, n-ary *)
  Section Fold.
    Context {G O : Type} (f : G -> list O -> A -> G * O).
    Notation f' := (fun (g : G) (os : list O) (ax : item) => f g os (fst ax)).

    Lemma fold_all_acc {X} (F : G -> list O -> X -> G * O) ts : forall g, map_accum (fold_up F) g ts = fold_all F g ts.
    Proof.
      unfold fold_all; induction ts as [|t ts IH]; intros g; [reflexivity|]; cbn [map_accum]; rewrite fold_list_cons.
      destruct (fold_up F g t); rewrite IH; reflexivity.
    Qed.

    Lemma cfold_top st : inner_top (cfold_close f) st = fold_top f st.
    Proof.
      destruct st as [[g [|v vs]] [|i [|l fo]]]; try reflexivity; unfold inner_top; cbn; destruct (f g i v); reflexivity.
    Qed.

    Lemma cfold_all ws iend g : Forall (fun t => exists i, below [i] t) ws -> Dn iend ->
      items P pok (p_init P) (flat_map preorder ws) iend ->
      forall k, exists i ahead, calls (cfold_next P f) k (consume_new P g) ⇓
         Ok (map (nth_error (snd (fold_all f' g ws))) (seq 0 k), (i, ahead, fst (fold_all f' g (firstn k ws)))) /\ (length ws < k -> Dn i).
    Proof.
      intros Hb Hend Hi k.
      destruct (consume_all P pok (fun g : G => (g, @nil A, @nil (list O))) (fun st path => deeper (length (snd st)) path)
        (fun st : @cfold_st A G O => match snd st with [] => Some (fst (fst st)) | _ => None end) (cfold_close f)
        (fun st item _ => let '(g, values, folded) := st in Ok (g, item :: values, [] :: folded))
        (fun st => length (snd st)) xpath cdepth) with (fl := fun w : tree item => w) (good := fun _ : tree item => True)
        (res := fold_up f') (Dn := Dn) (k := k) (ws := ws) (i := p_init P) (ahead := @None A) (c := g)
        as (i & ahead & Hc & He).
      - intros p x Hp st; apply must_deeper; exact Hp.
      - reflexivity.
      - intros [[g0 v] fo] a p st' E; injection E as <-; reflexivity.
      - intros [[g0 [|v vs]] [|j [|l fo]]] st' E; cbn in E; try discriminate; destruct (f g0 j v); [discriminate|]; injection E as <-; reflexivity.
      - reflexivity.
      - reflexivity.
      - intros [[g0 v] [|? ?]]; [cbn; lia|reflexivity].
      - exact Hdone.
      - intros c [[a x] ts] _.
        exists a, x, ts, (c, [a], [[]]), (fst (fold_list (fold_up f') c ts), [a], [snd (fold_list (fold_up f') c ts)]).
        split; [reflexivity|]; split; [reflexivity|]; split.
        + rewrite (att_list_ext _ (fold_top f) _ (fold_push)); [rewrite (fold_att_list f ts c [a] [] []); reflexivity|apply cfold_top|reflexivity].
        + cbn [cfold_close fold_up]; destruct (fold_list (fold_up f') c ts) as [g1 os]; cbn [fst snd]; destruct (f g1 os a); reflexivity.
      - apply Forall_forall; intros; exact I.
      - apply below1; exact Hb.
      - exists iend; split; [exact Hend|]; rewrite map_id; exact Hi.
      - exists i, ahead; split; [|intros Hk; apply He; exact Hk].
        rewrite !fold_all_acc in Hc; exact Hc.
    Qed.
  End Fold.

  (** From here on the reported paths must be the true ones. *)
  Hypothesis Hpath : forall p x, pok p x -> p = xpath x.

  Lemma last_seg_snoc p (i : nat) : ModelPipeColl.last_seg (map wrap (p ++ [i])) = Ok (wrap i).
  Proof. unfold ModelPipeColl.last_seg; rewrite map_app, rev_app_distr; reflexivity. Qed.
  Lemma coll_depth_snoc p (i : nat) : coll_depth (map wrap (p ++ [i])) = Ok (N.of_nat (length p)).
  Proof. destruct p as [|j p]; [reflexivity|]; cbn; rewrite map_length, app_length; cbn; do 2 f_equal; lia. Qed.

  (** *** fold_path, n-ary *)
  Section FoldPath.
    Context {G O : Type} (f : G -> list O -> list N -> A -> G * O).
    Notation f' := (fun (g : G) (os : list O) (ax : item) => f g os (xpath (snd ax)) (fst ax)).
    Notation pst := (@cfoldp_st A G O).

    Lemma cfoldp_push_ok (g : G) (values : list A) (folded : list (list O)) p i a :
      cfoldp_push (g, values, folded, rev (map wrap p)) a (map wrap (p ++ [i])) = Ok (g, a :: values, [] :: folded, rev (map wrap (p ++ [i]))).
    Proof.
      unfold cfoldp_push; rewrite coll_depth_snoc; cbn [bindR]; rewrite rev_length, map_length.
      replace (N.of_nat (length p) =? N.of_nat (length p) + 1)%N with false by (symmetry; apply N.eqb_neq; lia).
      rewrite last_seg_snoc; cbn [bindR]; rewrite map_app, rev_app_distr; reflexivity.
    Qed.

    Lemma cfoldp_att (t : tree item) : forall p i g values last rest, below (p ++ [i]) t ->
      att (inner_top (cfoldp_close f)) cfoldp_push xpath t (g, values, last :: rest, rev (map wrap p)) =
      Ok (fst (fold_up f' g t), values, (last ++ [snd (fold_up f' g t)]) :: rest, rev (map wrap p)).
    Proof.
      induction t as [[a x] ts IH] using tree_ind'; intros p i g values last rest Hb.
      apply below_node in Hb as [Hx Hb].
      rewrite att_node; unfold xpath at 1; rewrite Hx, cfoldp_push_ok; cbn [bindR].
      assert (Hts : forall g values last rest, att_list (inner_top (cfoldp_close f)) cfoldp_push xpath ts (g, values, last :: rest, rev (map wrap (p ++ [i]))) =
                Ok (fst (fold_list (fold_up f') g ts), values, (last ++ snd (fold_list (fold_up f') g ts)) :: rest, rev (map wrap (p ++ [i])))).
      { clear g values last rest; induction IH as [|t ts Ht _ IHl]; intros g0 v0 l0 r0; cbn [att_list]; [cbn; rewrite app_nil_r; reflexivity|].
        inversion Hb as [|? ? (j & Hj) Hb']; subst.
        rewrite (Ht _ j) by exact Hj; cbn [bindR]; rewrite IHl, fold_list_cons by exact Hb'.
        destruct (fold_up f' g0 t) as [g1 o]; cbn; destruct (fold_list (fold_up f') g1 ts) as [g2 os]; cbn.
        rewrite <- app_assoc; reflexivity. }
      rewrite Hts; cbn [bindR app fold_up]; unfold inner_top; cbn [cfoldp_close]; rewrite rev_involutive.
      destruct (fold_list (fold_up f') g ts) as [g1 os]; cbn [fst snd].
      unfold xpath; cbn; rewrite Hx; destruct (f g1 os (map wrap (p ++ [i])) a).
      rewrite map_app, rev_app_distr; reflexivity.
    Qed.

    Lemma cfoldp_att_list (ts : list (tree item)) p : Forall (fun t => exists i, below (p ++ [i]) t) ts ->
      forall g values last rest,
      att_list (inner_top (cfoldp_close f)) cfoldp_push xpath ts (g, values, last :: rest, rev (map wrap p)) =
      Ok (fst (fold_list (fold_up f') g ts), values, (last ++ snd (fold_list (fold_up f') g ts)) :: rest, rev (map wrap p)).
    Proof.
      induction 1 as [|t ts (i & Hi) _ IH]; intros g0 v0 l0 r0; cbn [att_list]; [cbn; rewrite app_nil_r; reflexivity|].
      rewrite (cfoldp_att t p i) by exact Hi; cbn [bindR]; rewrite IH, fold_list_cons.
      destruct (fold_up f' g0 t) as [g1 o]; cbn; destruct (fold_list (fold_up f') g1 ts) as [g2 os]; cbn.
      rewrite <- app_assoc; reflexivity.
    Qed.

    Lemma cfoldp_all ws iend g : Forall (fun t => exists i, below [i] t) ws -> Dn iend ->
      items P pok (p_init P) (flat_map preorder ws) iend ->
      forall k, exists i ahead, calls (cfoldp_next P f) k (consume_new P g) ⇓
         Ok (map (nth_error (snd (fold_all f' g ws))) (seq 0 k), (i, ahead, fst (fold_all f' g (firstn k ws)))) /\ (length ws < k -> Dn i).
    Proof.
      intros Hb Hend Hi k.
      destruct (consume_all P pok (fun g : G => (g, @nil A, @nil (list O), @nil N)) (fun st path => deeper (length (snd (fst st))) path)
        (fun st : pst => match snd (fst st) with [] => Some (fst (fst (fst st))) | _ => None end) (cfoldp_close f)
        cfoldp_push (fun st => length (snd (fst st))) xpath cdepth) with (fl := fun w : tree item => w) (good := fun t : tree item => exists i, below [i] t)
        (res := fold_up f') (Dn := Dn) (k := k) (ws := ws) (i := p_init P) (ahead := @None A) (c := g)
        as (i & ahead & Hc & He).
      - intros p x Hp st; apply must_deeper; exact Hp.
      - intros p x Hp st a; rewrite (Hpath _ _ Hp); reflexivity.
      - intros [[[g0 v] fo] pa] a p st' E; unfold cfoldp_push in E; destruct (coll_depth p); try discriminate; cbn [bindR] in E.
        match type of E with context [if ?b then ?x else ?y] => destruct (if b then x else y) end; try discriminate; injection E as <-; reflexivity.
      - intros [[[g0 [|v vs]] [|j [|l fo]]] [|seg pa]] st' E; cbn in E; try discriminate;
          repeat (match type of E with context [let (_, _) := f ?a ?b ?c ?d in _] => destruct (f a b c d) end); try discriminate; injection E as <-; reflexivity.
      - reflexivity.
      - reflexivity.
      - intros [[[g0 v] [|? ?]] pa]; [cbn; lia|reflexivity].
      - exact Hdone.
      - intros c [[a x] ts] (j & Hj); apply below_node in Hj as [Hx Hj].
        exists a, x, ts, (c, [a], [[]], rev (map wrap ([] ++ [j]))),
          (fst (fold_list (fold_up f') c ts), [a], [snd (fold_list (fold_up f') c ts)], rev (map wrap [j])).
        split; [reflexivity|]; split; [|split].
        + unfold xpath; rewrite Hx; apply (cfoldp_push_ok c [] [] [] j a).
        + apply (cfoldp_att_list ts [j] Hj c [a] [] []).
        + cbn [cfoldp_close fold_up]; rewrite rev_involutive; destruct (fold_list (fold_up f') c ts) as [g1 os]; cbn [fst snd].
          unfold xpath; rewrite Hx; cbn; destruct (f g1 os [wrap j] a); reflexivity.
      - exact Hb.
      - apply below1; exact Hb.
      - exists iend; split; [exact Hend|]; rewrite map_id; exact Hi.
      - exists i, ahead; split; [|intros Hk; apply He; exact Hk].
        rewrite !fold_all_acc in Hc; exact Hc.
    Qed.
  End FoldPath.

  Lemma bbelow1 (ws : list (btree item)) : Forall (fun t => exists i, bbelow [i] t) ws -> Forall (fun w => depth_ok cdepth 0 (flat w)) ws.
  Proof. apply Forall_impl; intros t (i & Hi); apply (below_cdepth (flat t) [i] (bbelow_flat _ _ Hi)); discriminate. Qed.

  (** *** trees, binary *)
  Definition btpush (st : list (N * btree A)) (a : A) (path : list N) : Res (list (N * btree A)) :=
    slot <- ModelPipeColl.last_seg path ;; Ok ((slot, BNode a None None) :: st).

  Lemma btrees_att (t : btree item) : forall p i s v l r rest, bbelow (p ++ [i]) t ->
    att (inner_top (@btrees_close A)) btpush xpath (flat t) ((s, BNode v l r) :: rest) =
    (t' <- set_child (wrap i) (BNode v l r) (btree_map fst t) ;; Ok ((s, t') :: rest)).
  Proof.
    induction t as [[a x] tl tr IHl IHr] using btree_ind'; intros p i s v l r rest (Hx & Hl & Hr).
    cbn [flat]; rewrite att_node; unfold btpush at 1, xpath at 1; rewrite Hx, last_seg_snoc; cbn [bindR].
    assert (Hk : att_list (inner_top (@btrees_close A)) btpush xpath
       (match tl with Some x => [flat x] | None => [] end ++ match tr with Some x => [flat x] | None => [] end)
       ((wrap i, BNode a None None) :: (s, BNode v l r) :: rest) =
       Ok ((wrap i, BNode a (option_map (btree_map fst) tl) (option_map (btree_map fst) tr)) :: (s, BNode v l r) :: rest)).
    { destruct tl as [tl|], tr as [tr|]; cbn [app att_list]; cbn in IHl, IHr.
      - rewrite (IHl _ 0) by exact Hl; rewrite wrap_0; cbn [set_child N.eqb bindR]; rewrite (IHr _ 1) by exact Hr; rewrite wrap_1; reflexivity.
      - rewrite (IHl _ 0) by exact Hl; rewrite wrap_0; reflexivity.
      - rewrite (IHr _ 1) by exact Hr; rewrite wrap_1; reflexivity.
      - reflexivity. }
    rewrite Hk; cbn [bindR btree_map fst]; unfold inner_top, btrees_close.
    match goal with |- context [set_child ?a ?b ?c] => destruct (set_child a b c) as [t'| | |] eqn:E end; try reflexivity;
      revert E; unfold set_child; destruct (wrap i =? 0)%N, (wrap i =? 1)%N; discriminate.
  Qed.

  Lemma btrees_all ws iend : Forall (fun t => exists i, bbelow [i] t) ws -> Dn iend ->
    items P pok (p_init P) (flat_map preorder (map flat ws)) iend ->
    forall k, exists i ahead, calls (btrees_next P) k (trees_new P) ⇓
       Ok (map (nth_error (map (btree_map fst) ws)) (seq 0 k), (i, ahead, tt)) /\ (length ws < k -> Dn i).
  Proof.
    intros Hb Hend Hi k.
    destruct (consume_all P pok (fun _ : unit => @nil (N * btree A)) (fun st path => Ok (length path <=? length st)) is_nil (@btrees_close A)
      btpush (@length (N * btree A)) xpath cdepth) with (fl := fun w : btree item => flat w) (good := fun t : btree item => exists i, bbelow [i] t)
      (res := fun (_ : unit) (w : btree item) => (tt, btree_map fst w)) (Dn := Dn) (k := k) (ws := ws) (i := p_init P) (ahead := @None A) (c := tt)
      as (i & ahead & Hc & He).
    - intros p x Hp st; apply must_len; exact Hp.
    - intros p x Hp st a; rewrite (Hpath _ _ Hp); reflexivity.
    - intros st a p st' E; unfold btpush in E; destruct (ModelPipeColl.last_seg p); try discriminate; injection E as <-; reflexivity.
    - intros [|[s p] [|[s' [v cl cr]] rest]] st' E; try discriminate; cbn in E.
      destruct (s =? 0)%N; [injection E as <-; reflexivity|]; destruct (s =? 1)%N; [injection E as <-; reflexivity|discriminate].
    - reflexivity.
    - intros []; reflexivity.
    - intros [|? ?]; [cbn; lia|reflexivity].
    - exact Hdone.
    - intros c [[a x] tl tr] (j & Hx & Hl & Hr).
      eexists a, x, _, [(wrap j, BNode a None None)], [(wrap j, BNode a (option_map (btree_map fst) tl) (option_map (btree_map fst) tr))].
      split; [reflexivity|]; split; [|split].
      + unfold btpush, xpath; rewrite Hx; change [j] with ([] ++ [j]); rewrite last_seg_snoc; reflexivity.
      + destruct tl as [tl|], tr as [tr|]; cbn [app att_list].
        * rewrite (btrees_att tl [j] 0) by exact Hl; rewrite wrap_0; cbn [set_child N.eqb bindR]; rewrite (btrees_att tr [j] 1) by exact Hr; rewrite wrap_1; reflexivity.
        * rewrite (btrees_att tl [j] 0) by exact Hl; rewrite wrap_0; reflexivity.
        * rewrite (btrees_att tr [j] 1) by exact Hr; rewrite wrap_1; reflexivity.
        * reflexivity.
      + reflexivity.
    - exact Hb.
    - apply bbelow1; exact Hb.
    - exists iend; split; [exact Hend|exact Hi].
    - exists i, ahead; split; [|intros Hk; apply He; exact Hk].
      rewrite !map_accum_tt in Hc; cbn [fst snd] in Hc; exact Hc.
  Qed.

  Lemma bfold_all_acc {G O X} (F : G -> option O * option O -> X -> G * O) ts : forall g, map_accum (bfold_up F) g ts = bfold_all F g ts.
  Proof.
    induction ts as [|t ts IH]; intros g; [reflexivity|]; cbn [map_accum bfold_all].
    destruct (bfold_up F g t); rewrite IH; reflexivity.
  Qed.

  (** *** fold_trees, binary *)
  Section BFold.
    Context {G O : Type} (f : G -> option O * option O -> A -> G * O).
    Notation f' := (fun (g : G) (os : option O * option O) (ax : item) => f g os (fst ax)).
    Notation bst := (@bcfold_st A G O).
    Definition bcpush (st : bst) (a : A) (path : list N) : Res bst :=
      let '(g, values, folded) := st in
      slot <- ModelPipeColl.last_seg path ;; Ok (g, a :: values, (slot, (None, None)) :: folded).

    Lemma bcfold_att (t : btree item) : forall p i g values s last rest, bbelow (p ++ [i]) t ->
      att (inner_top (bcfold_close f)) bcpush xpath (flat t) (g, values, (s, last) :: rest) =
      match set_slot (wrap i) last (snd (bfold_up f' g t)) with
      | Ok last' => Ok (fst (bfold_up f' g t), values, (s, last') :: rest) | _ => Panic end.
    Proof.
      induction t as [[a x] tl tr IHl IHr] using btree_ind'; intros p i g values s last rest (Hx & Hl & Hr).
      cbn [flat]; rewrite att_node; unfold bcpush at 1, xpath at 1; rewrite Hx, last_seg_snoc; cbn [bindR].
      assert (Hk : att_list (inner_top (bcfold_close f)) bcpush xpath
         (match tl with Some x => [flat x] | None => [] end ++ match tr with Some x => [flat x] | None => [] end)
         (g, a :: values, (wrap i, (None, None)) :: (s, last) :: rest) =
         let '(g1, ol) := fold_side (bfold_up f') g tl in
         let '(g2, or) := fold_side (bfold_up f') g1 tr in
         Ok (g2, a :: values, (wrap i, (ol, or)) :: (s, last) :: rest)).
      { destruct tl as [tl|], tr as [tr|]; cbn [app att_list fold_side]; cbn in IHl, IHr.
        - rewrite (IHl _ 0) by exact Hl; rewrite wrap_0; cbn [set_slot N.eqb bindR fst snd].
          destruct (bfold_up f' g tl) as [g1 ol]; cbn [fst snd].
          rewrite (IHr _ 1) by exact Hr; rewrite wrap_1; cbn [set_slot N.eqb Pos.eqb bindR fst snd].
          destruct (bfold_up f' g1 tr); reflexivity.
        - rewrite (IHl _ 0) by exact Hl; rewrite wrap_0; cbn [set_slot N.eqb bindR fst snd].
          destruct (bfold_up f' g tl) as [g1 ol]; reflexivity.
        - rewrite (IHr _ 1) by exact Hr; rewrite wrap_1; cbn [set_slot N.eqb Pos.eqb bindR fst snd].
          destruct (bfold_up f' g tr); reflexivity.
        - reflexivity. }
      rewrite Hk, bfold_up_node.
      destruct (fold_side (bfold_up f') g tl) as [g1 ol], (fold_side (bfold_up f') g1 tr) as [g2 or]; cbn [bindR].
      unfold inner_top; cbn [bcfold_close fst snd]; destruct (f g2 (ol, or) a) as [g3 res]; cbn [fst snd].
      destruct (set_slot (wrap i) last res); reflexivity.
    Qed.

    Lemma bcfold_all ws iend g : Forall (fun t => exists i, bbelow [i] t) ws -> Dn iend ->
      items P pok (p_init P) (flat_map preorder (map flat ws)) iend ->
      forall k, exists i ahead, calls (bcfold_next P f) k (consume_new P g) ⇓
         Ok (map (nth_error (snd (bfold_all f' g ws))) (seq 0 k), (i, ahead, fst (bfold_all f' g (firstn k ws)))) /\ (length ws < k -> Dn i).
    Proof.
      intros Hb Hend Hi k.
      destruct (consume_all P pok (fun g : G => (g, @nil A, @nil (N * (option O * option O)))) (fun st path => deeper (length (snd st)) path)
        (fun st : bst => match snd st with [] => Some (fst (fst st)) | _ => None end) (bcfold_close f)
        bcpush (fun st => length (snd st)) xpath cdepth) with (fl := fun w : btree item => flat w) (good := fun t : btree item => exists i, bbelow [i] t)
        (res := bfold_up f') (Dn := Dn) (k := k) (ws := ws) (i := p_init P) (ahead := @None A) (c := g)
        as (i & ahead & Hc & He).
      - intros p x Hp st; apply must_deeper; exact Hp.
      - intros p x Hp st a; rewrite (Hpath _ _ Hp); reflexivity.
      - intros [[g0 v] fo] a p st' E; unfold bcpush in E; destruct (ModelPipeColl.last_seg p); try discriminate; injection E as <-; reflexivity.
      - intros [[g0 [|v vs]] [|[sl j] [|[sl' l] fo]]] st' E; cbn in E; try discriminate; destruct (f g0 j v) as [g1 r]; [discriminate|].
        destruct (set_slot sl l r); try discriminate; injection E as <-; reflexivity.
      - reflexivity.
      - reflexivity.
      - intros [[g0 v] [|? ?]]; [cbn; lia|reflexivity].
      - exact Hdone.
      - intros c [[a x] tl tr] (j & Hx & Hl & Hr).
        set (rr := let '(g1, ol) := fold_side (bfold_up f') c tl in let '(g2, or) := fold_side (bfold_up f') g1 tr in (g2, (ol, or))).
        eexists a, x, _, (c, [a], [(wrap j, (None, None))]), (fst rr, [a], [(wrap j, snd rr)]).
        split; [reflexivity|]; split; [|split].
        + unfold bcpush, xpath; rewrite Hx; change [j] with ([] ++ [j]); rewrite last_seg_snoc; reflexivity.
        + subst rr; destruct tl as [tl|], tr as [tr|]; cbn [app att_list fold_side].
          * rewrite (bcfold_att tl [j] 0) by exact Hl; rewrite wrap_0; cbn [set_slot N.eqb bindR fst snd].
            destruct (bfold_up f' c tl) as [g1 ol]; cbn [fst snd].
            rewrite (bcfold_att tr [j] 1) by exact Hr; rewrite wrap_1; cbn [set_slot N.eqb Pos.eqb bindR fst snd].
            destruct (bfold_up f' g1 tr); reflexivity.
          * rewrite (bcfold_att tl [j] 0) by exact Hl; rewrite wrap_0; cbn [set_slot N.eqb bindR fst snd].
            destruct (bfold_up f' c tl) as [g1 ol]; reflexivity.
          * rewrite (bcfold_att tr [j] 1) by exact Hr; rewrite wrap_1; cbn [set_slot N.eqb Pos.eqb bindR fst snd].
            destruct (bfold_up f' c tr); reflexivity.
          * reflexivity.
        + subst rr; rewrite bfold_up_node; destruct (fold_side (bfold_up f') c tl) as [g1 ol], (fold_side (bfold_up f') g1 tr) as [g2 or]; cbn.
          destruct (f g2 (ol, or) a); reflexivity.
      - exact Hb.
      - apply bbelow1; exact Hb.
      - exists iend; split; [exact Hend|exact Hi].
      - exists i, ahead; split; [|intros Hk; apply He; exact Hk].
        rewrite !bfold_all_acc in Hc; exact Hc.
    Qed.
  End BFold.

  (** *** fold_path, binary *)
  Section BFoldPath.
    Context {G O : Type} (f : G -> option O * option O -> list N -> A -> G * O).
    Notation f' := (fun (g : G) (os : option O * option O) (ax : item) => f g os (xpath (snd ax)) (fst ax)).
    Notation bst := (@bcfoldp_st A G O).
    Definition bcppush (st : bst) (a : A) (ipath : list N) : Res bst :=
      let '(g, values, folded, path) := st in
      seg <- ModelPipeColl.last_seg ipath ;; Ok (g, a :: values, (None, None) :: folded, seg :: path).

    Lemma snoc_rev p i : wrap i :: rev (map wrap p) = rev (map wrap (p ++ [i])).
    Proof. rewrite map_app, rev_app_distr; reflexivity. Qed.

    Lemma bcfoldp_att (t : btree item) : forall p i g values last rest, bbelow (p ++ [i]) t ->
      att (inner_top (bcfoldp_close f)) bcppush xpath (flat t) (g, values, last :: rest, rev (map wrap p)) =
      match set_slot (wrap i) last (snd (bfold_up f' g t)) with
      | Ok last' => Ok (fst (bfold_up f' g t), values, last' :: rest, rev (map wrap p)) | _ => Panic end.
    Proof.
      induction t as [[a x] tl tr IHl IHr] using btree_ind'; intros p i g values last rest (Hx & Hl & Hr).
      cbn [flat]; rewrite att_node; unfold bcppush at 1, xpath at 1; rewrite Hx, last_seg_snoc; cbn [bindR]; rewrite snoc_rev.
      assert (Hk : att_list (inner_top (bcfoldp_close f)) bcppush xpath
         (match tl with Some x => [flat x] | None => [] end ++ match tr with Some x => [flat x] | None => [] end)
         (g, a :: values, (None, None) :: last :: rest, rev (map wrap (p ++ [i]))) =
         let '(g1, ol) := fold_side (bfold_up f') g tl in
         let '(g2, or) := fold_side (bfold_up f') g1 tr in
         Ok (g2, a :: values, (ol, or) :: last :: rest, rev (map wrap (p ++ [i])))).
      { destruct tl as [tl|], tr as [tr|]; cbn [app att_list fold_side]; cbn in IHl, IHr.
        - rewrite (IHl _ 0) by exact Hl; rewrite wrap_0; cbn [set_slot N.eqb bindR fst snd].
          destruct (bfold_up f' g tl) as [g1 ol]; cbn [fst snd].
          rewrite (IHr _ 1) by exact Hr; rewrite wrap_1; cbn [set_slot N.eqb Pos.eqb bindR fst snd].
          destruct (bfold_up f' g1 tr); reflexivity.
        - rewrite (IHl _ 0) by exact Hl; rewrite wrap_0; cbn [set_slot N.eqb bindR fst snd].
          destruct (bfold_up f' g tl) as [g1 ol]; reflexivity.
        - rewrite (IHr _ 1) by exact Hr; rewrite wrap_1; cbn [set_slot N.eqb Pos.eqb bindR fst snd].
          destruct (bfold_up f' g tr); reflexivity.
        - reflexivity. }
      rewrite Hk, bfold_up_node.
      destruct (fold_side (bfold_up f') g tl) as [g1 ol], (fold_side (bfold_up f') g1 tr) as [g2 or]; cbn [bindR].
      unfold inner_top; cbn [bcfoldp_close fst snd]; rewrite rev_involutive; unfold xpath; rewrite Hx.
      destruct (f g2 (ol, or) (map wrap (p ++ [i])) a) as [g3 res]; cbn [fst snd].
      rewrite <- snoc_rev; destruct (set_slot (wrap i) last res); reflexivity.
    Qed.

    Lemma bcfoldp_all ws iend g : Forall (fun t => exists i, bbelow [i] t) ws -> Dn iend ->
      items P pok (p_init P) (flat_map preorder (map flat ws)) iend ->
      forall k, exists i ahead, calls (bcfoldp_next P f) k (consume_new P g) ⇓
         Ok (map (nth_error (snd (bfold_all f' g ws))) (seq 0 k), (i, ahead, fst (bfold_all f' g (firstn k ws)))) /\ (length ws < k -> Dn i).
    Proof.
      intros Hb Hend Hi k.
      destruct (consume_all P pok (fun g : G => (g, @nil A, @nil (option O * option O), @nil N)) (fun st path => deeper (length (snd (fst st))) path)
        (fun st : bst => match snd (fst st) with [] => Some (fst (fst (fst st))) | _ => None end) (bcfoldp_close f)
        bcppush (fun st => length (snd (fst st))) xpath cdepth) with (fl := fun w : btree item => flat w) (good := fun t : btree item => exists i, bbelow [i] t)
        (res := bfold_up f') (Dn := Dn) (k := k) (ws := ws) (i := p_init P) (ahead := @None A) (c := g)
        as (i & ahead & Hc & He).
      - intros p x Hp st; apply must_deeper; exact Hp.
      - intros p x Hp st a; rewrite (Hpath _ _ Hp); reflexivity.
      - intros [[[g0 v] fo] pa] a p st' E; unfold bcppush in E; destruct (ModelPipeColl.last_seg p); try discriminate; injection E as <-; reflexivity.
      - intros [[[g0 [|v vs]] [|j [|l fo]]] [|seg pa]] st' E; cbn in E; try discriminate;
          repeat (match type of E with context [let (_, _) := f ?a ?b ?c ?d in _] => destruct (f a b c d) end); try discriminate.
        destruct (set_slot seg l o); try discriminate; injection E as <-; reflexivity.
      - reflexivity.
      - reflexivity.
      - intros [[[g0 v] [|? ?]] pa]; [cbn; lia|reflexivity].
      - exact Hdone.
      - intros c [[a x] tl tr] (j & Hx & Hl & Hr).
        set (rr := let '(g1, ol) := fold_side (bfold_up f') c tl in let '(g2, or) := fold_side (bfold_up f') g1 tr in (g2, (ol, or))).
        eexists a, x, _, (c, [a], [(None, None)], rev (map wrap [j])), (fst rr, [a], [snd rr], rev (map wrap [j])).
        split; [reflexivity|]; split; [|split].
        + unfold bcppush, xpath; rewrite Hx; change [j] with ([] ++ [j]); rewrite last_seg_snoc; reflexivity.
        + subst rr; destruct tl as [tl|], tr as [tr|]; cbn [app att_list fold_side].
          * rewrite (bcfoldp_att tl [j] 0) by exact Hl; rewrite wrap_0; cbn [set_slot N.eqb bindR fst snd].
            destruct (bfold_up f' c tl) as [g1 ol]; cbn [fst snd].
            rewrite (bcfoldp_att tr [j] 1) by exact Hr; rewrite wrap_1; cbn [set_slot N.eqb Pos.eqb bindR fst snd].
            destruct (bfold_up f' g1 tr); reflexivity.
          * rewrite (bcfoldp_att tl [j] 0) by exact Hl; rewrite wrap_0; cbn [set_slot N.eqb bindR fst snd].
            destruct (bfold_up f' c tl) as [g1 ol]; reflexivity.
          * rewrite (bcfoldp_att tr [j] 1) by exact Hr; rewrite wrap_1; cbn [set_slot N.eqb Pos.eqb bindR fst snd].
            destruct (bfold_up f' c tr); reflexivity.
          * reflexivity.
        + subst rr; rewrite bfold_up_node; destruct (fold_side (bfold_up f') c tl) as [g1 ol], (fold_side (bfold_up f') g1 tr) as [g2 or].
          unfold xpath; cbn; rewrite Hx; cbn; destruct (f g2 (ol, or) [wrap j] a); reflexivity.
      - exact Hb.
      - apply bbelow1; exact Hb.
      - exists iend; split; [exact Hend|exact Hi].
      - exists i, ahead; split; [|intros Hk; apply He; exact Hk].
        rewrite !bfold_all_acc in Hc; exact Hc.
    Qed.
  End BFoldPath.
End Ends.
