(** * ProofsExact: n-ary chains with their reported paths, from the first node to the result. *)
From Verif Require Import Prelim PrelimFacts Spec SpecFacts SpecPipe SpecPipeColl SpecDrift SpecObs ModelNode NodeFacts ModelPre ModelPipe ModelPipeColl ProofsPlain Slots
  PipeCore PipeBase PipeChain PipeEnd ProofsPipe PipeFinal PipeCollBase PipeCollEnd ProofsPipeColl PipeCollFinal PipeExact.

(** ** The path which a chain with a prune reports *)
Lemma reported_const {V A} (c : chain V A) : has_prune c = true -> forall gs p q, reported c gs p = reported c gs q.
Proof. induction c; cbn; intros Hp gs p q; try discriminate; auto. Qed.

Lemma dvisit_cursor {V A} (c : chain V A) : has_prune c = true -> forall gs p d v q,
  let '(gs', o) := dvisit c gs p d v in
  match o with
  | Drop => reported c gs' q = reported c gs q \/ reported c gs' q = drift (length p) (reported c gs q)
  | Keep _ _ => reported c gs' q = drift (length p) (reported c gs q)
  end.
Proof.
  induction c as [|A B G c IH g f|A G c IH g f|A G c IH g f|A c IH lim]; cbn [has_prune]; intros Hp gs p d v q; try discriminate; cbn [dvisit].
  - specialize (IH Hp (fst gs) p d v q); destruct (dvisit c (fst gs) p d v) as [g1 [|a dn]]; [exact IH|].
    destruct (f (snd gs) a); exact IH.
  - destruct (dvisit c (fst gs) p d v) as [g1 [|a dn]]; [left; reflexivity|].
    destruct (f (fst (snd gs)) a) as [h [|]]; cbn; auto.
  - destruct (dvisit c (fst gs) p d v) as [g1 [|a dn]]; [left; reflexivity|].
    destruct (f (fst (snd gs)) (reported c g1 p) a) as [h [|]]; cbn; auto.
  - specialize (IH Hp gs p d v q); destruct (dvisit c gs p d v) as [g1 [|a dn]]; exact IH.
Qed.

(** ** Renaming the values of a walk *)
Definition omap {A B} (h : A -> B) (o : outcome A) : outcome B := match o with Drop => Drop | Keep a dn => Keep (h a) dn end.

Lemma walk_omap {G X A B} (v : G -> X -> G * outcome A) (v' : G -> X -> G * outcome B) (h : A -> B) t :
  (forall g x, In x (preorder t) -> v' g x = let '(g1, o) := v g x in (g1, omap h o)) ->
  forall g, walk v' g t = let '(g1, o) := walk v g t in (g1, option_map (tree_map h) o).
Proof.
  induction t as [x ts IH] using tree_ind'; intros Hv g; rewrite !walk_node.
  rewrite (Hv g x) by (left; reflexivity); destruct (v g x) as [g1 [|a [|]]]; cbn; try reflexivity.
  rewrite (walk_list_map (walk v) (walk v') (tree_map h)).
  - destruct (walk_list (walk v) g1 ts); reflexivity.
  - rewrite Forall_forall in *; intros t Ht; apply IH; [exact Ht|]; intros g0 y Hy; apply Hv; right; apply in_flat_map; eauto.
Qed.

Lemma walk_all_omap {G X A B} (v : G -> X -> G * outcome A) (v' : G -> X -> G * outcome B) (h : A -> B) ts :
  (forall g x, In x (flat_map preorder ts) -> v' g x = let '(g1, o) := v g x in (g1, omap h o)) ->
  forall g, walk_all v' g ts = let '(g1, os) := walk_all v g ts in (g1, map (tree_map h) os).
Proof.
  intros Hv; apply walk_list_map; apply Forall_forall; intros t Ht g; apply walk_omap.
  intros g0 x Hx; apply Hv; apply in_flat_map; eauto.
Qed.

Lemma preorder_map {A B} (h : A -> B) t : preorder (tree_map h t) = map h (preorder t).
Proof.
  induction t as [x ts IH] using tree_ind'; cbn; f_equal.
  induction IH as [|t ts Ht _ IHl]; [reflexivity|]; cbn; rewrite Ht, IHl, map_app; reflexivity.
Qed.
Lemma flat_preorder_map {A B} (h : A -> B) ts : flat_map preorder (map (tree_map h) ts) = map h (flat_map preorder ts).
Proof. induction ts as [|t ts IH]; [reflexivity|]; cbn; rewrite preorder_map, IH, map_app; reflexivity. Qed.

Lemma tree_map_comp {A B C} (h : A -> B) (k : B -> C) t : tree_map k (tree_map h t) = tree_map (fun x => k (h x)) t.
Proof.
  induction t as [x ts IH] using tree_ind'; cbn; f_equal; rewrite map_map.
  induction IH as [|t ts Ht _ IHl]; [reflexivity|]; cbn; rewrite Ht, IHl; reflexivity.
Qed.

(** What is known of each item. *)
Lemma items_pok {A X} (P : pipe A) (pok : list N -> X -> Prop) s l s' : items P pok s l s' -> Forall (fun ax => exists p, pok p (snd ax)) l.
Proof. induction 1; constructor; eauto. Qed.
Lemma items_keep {A X} (P : pipe A) (pok : list N -> X -> Prop) (Q : X -> Prop) s l s' :
  items P pok s l s' -> Forall (fun ax => Q (snd ax)) l -> items P (fun p x => pok p x /\ Q x) s l s'.
Proof.
  induction 1; intros HQ; [apply it_nil; assumption|]; inversion HQ; subst; eapply it_cons; eauto.
Qed.

(** Every position has its depth. *)
Lemma annotate_deep {A} (t : tree A) : forall p ab, deep (fun x => length (map wrap (pos_path x))) (length p) (annotate p ab t).
Proof.
  induction t as [v ts IH] using tree_ind'; intros p ab; cbn [annotate]; apply deep_node; split; [cbn; apply map_length|].
  generalize 0 as i; induction IH as [|t ts Ht _ IHl]; intros i; [constructor|]; rewrite mapi_cons; constructor; [|apply IHl].
  specialize (Ht (p ++ [i]) (ab ++ [v])); rewrite app_length, Nat.add_1_r in Ht; exact Ht.
Qed.

Notation rel := (fun axq => (fst axq, snd (snd axq))).
Notation relp := (fun ap => (fst ap, rep_pos (snd ap))).

Section Exact.
  Context {Nd V : Type} (gvc : Nd -> V * list Nd) (nt : Nd -> tree Nd).
  Hypothesis H : node_tree gvc nt.
  Notation val := (fun x : pos Nd => nval gvc (pos_here x)).

  Lemma exact_base p (x : pos Nd) : pok_exact p x -> p = xpath x /\ segs_ok p.
  Proof.
    intros ->; split; [reflexivity|]; apply Forall_map, Forall_forall; intros i _; unfold wrap.
    pose proof (N.mod_upper_bound (N.of_nat i) usize_mod ltac:(discriminate)) as Hu; unfold usize_max, usize_mod in *; lia.
  Qed.

  Lemma cursor_drop {A} (c : chain V A) depth : has_prune c = true -> forall g x g',
    dvis val xpath depth c g x = (g', Drop) -> reported c g' [] = reported c g [] \/ reported c g' [] = drift (length (xpath x)) (reported c g []).
  Proof. intros Hp g x g' E; unfold dvis in E; pose proof (dvisit_cursor c Hp g (xpath x) (depth x) (val x) []) as Hc; cbv beta in Hc, E; rewrite E in Hc; exact Hc. Qed.
  Lemma cursor_keep {A} (c : chain V A) depth : has_prune c = true -> forall g x g' a dn,
    dvis val xpath depth c g x = (g', Keep a dn) -> reported c g' [] = drift (length (xpath x)) (reported c g []).
  Proof. intros Hp g x g' a dn E; unfold dvis in E; pose proof (dvisit_cursor c Hp g (xpath x) (depth x) (val x) []) as Hc; cbv beta in Hc, E; rewrite E in Hc; exact Hc. Qed.

  (** *** One tree *)
  Lemma exact_items {A} (c : chain V A) n : has_prune c = true -> (N.of_nat (length (preorder (nt n))) <= usize_max)%N ->
    let w := walk (at_node_reported (nval gvc) c) (dclos_init [] c) (positions (nt n)) in
    exists s', items (tree_chain (into_pipeline gvc n) c) (fun p (x : pos unit) => p = xpath x)
      (p_init (tree_chain (into_pipeline gvc n) c)) (flat_map preorder (opt_list (option_map (tree_map relp) (snd w)))) s' /\
      closures _ _ _ c s' = dforget c (fst w) /\
      match option_map (tree_map relp) (snd w) with Some t => below [] t | None => True end /\
      Forall (fun ap => segs_ok (snd ap)) (flat_map preorder (opt_list (snd w))).
  Proof.
    intros Hp Hb w.
    destruct (xchain_sim (into_pipeline gvc n) tree_depth [] val xpath (@xdepth Nd) pok_exact exact_base) with
      (R0 := base_R (fun l : list Nd => l) (map Some) (fun p ab n => annotate p ab (nt n)) []) (d0 := @nil (tree (pos Nd))) (r0 := [positions (nt n)]) (c := c)
      as (R & HR & Hcl & Hi).
    { intros p x Hl; unfold tree_depth, xdepth; rewrite Hl; unfold xpath; rewrite map_length; reflexivity. }
    { apply (nary_sim gvc nt [] (pt_new n []) H). }
    { apply (base_R_init (fun l : list Nd => l) (map Some) (fun p ab n => annotate p ab (nt n)) [] n). }
    { intros _; split; [|constructor]; cbn [app]; unfold fsize; cbn [map]; unfold positions; rewrite tsize_annotate; cbn [list_sum fold_right].
      rewrite Nat.add_0_r; auto. }
    destruct (simx_items _ _ _ _ _ HR _ _ _ _ Hi) as (s' & Hit & HR'); cbn [app] in Hit, HR'.
    set (vis := dvis val xpath (@xdepth Nd) c) in *; set (pth := fun g x => reported c g (xpath x)) in *.
    assert (Ew : w = let '(g, o) := walk (with_rep vis pth) (dclos_init [] c) (positions (nt n)) in (g, option_map (tree_map rel) o)).
    { apply walk_omap; intros g x Hx; unfold at_node_reported, at_node_exact, with_rep, vis, pth, dvis.
      rewrite <- (xpath_small _ _ Hx) by exact Hb; unfold xdepth.
      destruct (dvisit c g (xpath x) (N.of_nat (length (pos_path x))) (nval gvc (pos_here x))) as [g1 [|a dn]]; reflexivity. }
    pose proof (walk_ext_root vis pth (fun g => reported c g []) (fun x => length (xpath x)) (fun g x => reported_const c Hp g _ _)
      (cursor_drop c _ Hp) (cursor_keep c _ Hp) (positions (nt n)) (dclos_init [] c) (annotate_deep (nt n) [] [])) as Hext.
    unfold walk_all in Hit, HR'; rewrite walk_list_cons in Hit, HR'.
    destruct (walk (with_rep vis pth) (dclos_init [] c) (positions (nt n))) as [g o]; rewrite walk_list_nil in Hit, HR'; cbn [fst snd] in *; rewrite app_nil_r in *.
    rewrite Ew; cbn [fst snd]; exists s'; split; [|split; [|split]].
    - replace (flat_map preorder (opt_list (option_map (tree_map relp) (option_map (tree_map rel) o))))
        with (map (fun ax => (fst ax, rep_pos (snd (snd ax)))) (flat_map preorder (opt_list o))).
      + refine (items_map _ pok_rep _ (fun xq => rep_pos (snd xq)) _ _ _ _ Hit).
        intros p x [-> Hs]; apply rep_xpath; exact Hs.
      + destruct o as [t|]; [|reflexivity]; cbn [option_map opt_list flat_map]; rewrite !app_nil_r, tree_map_comp, preorder_map; reflexivity.
    - apply (Hcl _ _ _ _ HR').
    - destruct o as [t|]; [|exact I]; cbn [option_map]; apply (ext_below _ [] (Hext t eq_refl)).
    - replace (flat_map preorder (opt_list (option_map (tree_map rel) o))) with (map rel (flat_map preorder (opt_list o))).
      + apply Forall_map; eapply Forall_impl; [|eapply items_pok; exact Hit]; intros ax (p & -> & Hs); exact Hs.
      + destruct o as [t|]; [|reflexivity]; cbn [option_map opt_list flat_map]; rewrite !app_nil_r, preorder_map; reflexivity.
  Qed.

  Lemma reported_exact {A} (c : chain V A) t g0 :
    walk (at_node_exact (nval gvc) c) g0 t = let '(g, o) := walk (at_node_reported (nval gvc) c) g0 t in (g, option_map (tree_map fst) o).
  Proof.
    apply walk_omap; intros g x _; unfold at_node_reported; destruct (at_node_exact (nval gvc) c g x) as [g1 [|a dn]]; reflexivity.
  Qed.

  Lemma len_of_path : forall p (x : pos unit), p = xpath x -> length p = length (pos_path x).
  Proof. intros p x ->; apply map_length. Qed.

  Lemma exact_collect {A} (c : chain V A) n : has_prune c = true -> (N.of_nat (length (preorder (nt n))) <= usize_max)%N ->
    let '(gs, o) := walk (at_node_exact (nval gvc) c) (dclos_init [] c) (positions (nt n)) in
    exists s, collect_tree (tree_chain (into_pipeline gvc n) c) ⇓ Ok (o, s) /\
      closures tree_depth [] (into_pipeline gvc n) c s = dforget c gs.
  Proof.
    intros Hp Hb; destruct (exact_items c n Hp Hb) as (s & Hi & Hc & Hw & _); rewrite reported_exact.
    destruct (walk (at_node_reported (nval gvc) c) (dclos_init [] c) (positions (nt n))) as [g o]; cbn [fst snd] in *.
    exists s; split; [|exact Hc].
    replace (option_map (tree_map fst) o) with (option_map (tree_map fst) (option_map (tree_map relp) o)).
    - eapply collect_ok; [exact len_of_path|exact Hw|exact Hi].
    - destruct o as [t|]; [|reflexivity]; cbn [option_map]; rewrite tree_map_comp; reflexivity.
  Qed.

  Lemma exact_fold {A} (c : chain V A) n : has_prune c = true -> (N.of_nat (length (preorder (nt n))) <= usize_max)%N ->
    forall G O (f : G -> list O -> A -> G * O) g,
    let '(gs, o) := walk (at_node_exact (nval gvc) c) (dclos_init [] c) (positions (nt n)) in
    exists s, fold_tree (tree_chain (into_pipeline gvc n) c) f g ⇓
      Ok (option_map (fun t => snd (fold_up f g t)) o, match o with Some t => fst (fold_up f g t) | None => g end, s) /\
      closures tree_depth [] (into_pipeline gvc n) c s = dforget c gs.
  Proof.
    intros Hp Hb G O f g0; destruct (exact_items c n Hp Hb) as (s & Hi & Hc & Hw & _); rewrite reported_exact.
    destruct (walk (at_node_reported (nval gvc) c) (dclos_init [] c) (positions (nt n))) as [g o]; cbn [fst snd] in *.
    exists s; split; [|exact Hc].
    pose proof (fold_tree_ok (tree_chain (into_pipeline gvc n) c) _ len_of_path f _ g0 s Hw Hi) as Hf.
    destruct o as [t|]; cbn [option_map] in Hf |- *; [|exact Hf].
    rewrite fold_up_map in Hf; rewrite fold_up_map; exact Hf.
  Qed.


  Lemma exact_fold_path {A} (c : chain V A) n : has_prune c = true -> (N.of_nat (length (preorder (nt n))) <= usize_max)%N ->
    forall G O (f : G -> list O -> list N -> A -> G * O) g,
    let '(gs, o) := walk (at_node_reported (nval gvc) c) (dclos_init [] c) (positions (nt n)) in
    exists s, fold_path (tree_chain (into_pipeline gvc n) c) f g ⇓
      Ok (option_map (fun t => snd (fold_up (given_path f) g t)) o, match o with Some t => fst (fold_up (given_path f) g t) | None => g end, s) /\
      closures tree_depth [] (into_pipeline gvc n) c s = dforget c gs.
  Proof.
    intros Hp Hb G O f g0; destruct (exact_items c n Hp Hb) as (s & Hi & Hc & Hw & Hs).
    destruct (walk (at_node_reported (nval gvc) c) (dclos_init [] c) (positions (nt n))) as [g o]; cbn [fst snd] in *.
    exists s; split; [|exact Hc].
    pose proof (fold_path_ok (tree_chain (into_pipeline gvc n) c) _ len_of_path (fun p x E => E) f _ g0 s Hw Hi) as Hf.
    destruct o as [t|]; cbn [option_map] in Hf |- *; [|exact Hf].
    rewrite fold_up_map, (fold_up_ext_in _ (given_path f)) in Hf; [exact Hf|].
    intros g1 os ap Hin; unfold given_path; cbn [fst snd]; f_equal; symmetry; apply rep_xpath.
    rewrite Forall_forall in Hs; apply (Hs ap); cbn [opt_list flat_map]; rewrite app_nil_r; exact Hin.
  Qed.

  (** *** Collections *)
  Definition rpath (x : pos Nd) : list N := match pos_path x with [] => [0%N] | _ => xpath x end.
  Lemma rpath_rooted x : rooted x -> rpath x = xpath x.
  Proof. unfold rooted, rpath; destruct (pos_path x); congruence. Qed.

  Lemma each_deep trees : Forall (deep (fun x => length (rpath x)) 1) (mapi (fun i n => annotate [i] [] (nt n)) 0 trees).
  Proof.
    apply Forall_forall; intros t Ht; destruct (in_mapi _ _ _ _ Ht) as (i & n & -> & _ & _).
    assert (Hr : forall x, In x (preorder (annotate [i] [] (nt n))) -> rooted x).
    { intros x Hx; destruct (annotate_prefix _ _ _ _ Hx) as (q & E); unfold rooted; rewrite E; discriminate. }
    pose proof (annotate_deep (nt n) [i] []) as Hd; cbn [length] in Hd; revert Hr Hd; generalize 1 as k.
    generalize (annotate [i] [] (nt n)); clear; intros t; induction t as [x ts IH] using tree_ind'; intros k Hr Hd.
    apply deep_node in Hd as [Hx Hd]; apply deep_node; split.
    - rewrite rpath_rooted by (apply Hr; left; reflexivity); exact Hx.
    - rewrite Forall_forall in *; intros t Ht; apply IH; [exact Ht| |apply Hd; exact Ht].
      intros y Hy; apply Hr; right; apply in_flat_map; eauto.
  Qed.

  Lemma exact_each_items {A} (c : chain V A) trees : has_prune c = true -> small_collection trees ->
    (N.of_nat (length (flat_map (fun n => preorder (nt n)) trees)) <= usize_max)%N ->
    let P := each_chain (into_pipeline_each gvc trees) c in
    let w := walk_all (at_node_each_reported (nval gvc) c) (dclos_init [0%N] c) (each_positions (map nt trees)) in
    exists Dn, ended P Dn /\ (forall i, Dn i -> closures coll_depth [0%N] (into_pipeline_each gvc trees) c i = dforget c (fst w)) /\
      Forall (fun t => exists i, below [i] t) (map (tree_map relp) (snd w)) /\
      Forall (fun ap => segs_ok (snd ap)) (flat_map preorder (snd w)) /\
      exists iend, Dn iend /\ items P pok_exact1 (p_init P) (flat_map preorder (map (tree_map relp) (snd w))) iend.
  Proof.
    intros Hp Hc Hb P w.
    destruct (nary_coll_sim gvc nt trees H Hc) as (R0 & Hs0 & Hi0).
    destruct (xchain_sim (into_pipeline_each gvc trees) coll_depth [0%N] val rpath (fun x => N.of_nat (cdepth x)) pok_exact1) with
      (R0 := fun s g d r => R0 s g d r /\ Forall rooted (flat_map preorder (d ++ r)))
      (d0 := @nil (tree (pos Nd))) (r0 := mapi (fun i n => annotate [i] [] (nt n)) 0 trees) (c := c)
      as (R & HR & Hcl & Hi).
    { intros p x [Hx Hr]; rewrite rpath_rooted by exact Hr; apply exact_base; exact Hx. }
    { intros p x Hl; unfold rpath, cdepth in *; unfold xpath in *; destruct (pos_path x) as [|i q]; cbn [length map] in Hl; [|rewrite map_length in Hl];
        destruct p; try discriminate; unfold coll_depth; cbn [length pred] in *; injection Hl as Hl; rewrite ?Hl; reflexivity. }
    { apply (simulates_keeps _ _ _ _ rooted Hs0). }
    { exact (conj Hi0 (each_rooted nt trees)). }
    { intros _; cbn [app]; rewrite fsize_each; split; [exact Hb|]; constructor; [|constructor]; rewrite N.add_0_l; exact Hb. }
    destruct (simx_items _ _ _ _ _ HR _ _ _ _ Hi) as (s' & Hit & HR'); cbn [app] in Hit, HR'.
    set (vis := dvis val rpath (fun x => N.of_nat (cdepth x)) c) in *; set (pth := fun g x => reported c g (rpath x)) in *.
    assert (Ew : w = let '(g, o) := walk_all (with_rep vis pth) (dclos_init [0%N] c) (mapi (fun i n => annotate [i] [] (nt n)) 0 trees) in (g, map (tree_map rel) o)).
    { subst w; rewrite each_positions_map; apply walk_all_omap; intros g x Hx; unfold at_node_each_reported, at_node_each_exact, with_rep, vis, pth, dvis.
      pose proof (each_rooted nt trees) as Hro; rewrite Forall_forall in Hro; rewrite (rpath_rooted x) by (apply Hro; exact Hx).
      rewrite <- (each_xpath nt trees x Hc Hb Hx); unfold cdepth.
      destruct (dvisit c g (xpath x) (N.of_nat (pred (length (pos_path x)))) (nval gvc (pos_here x))) as [g1 [|a dn]]; reflexivity. }
    pose proof (walk_list_ext_paths vis pth (fun g => reported c g []) (fun x => length (rpath x)) (fun g x => reported_const c Hp g _ _)) as Hext.
    specialize (Hext ltac:(intros g x g' E; unfold vis, dvis in E; pose proof (dvisit_cursor c Hp g (rpath x) (N.of_nat (cdepth x)) (val x) []) as Hd;
      cbv beta in Hd, E; rewrite E in Hd; exact Hd)).
    specialize (Hext ltac:(intros g x g' a dn E; unfold vis, dvis in E; pose proof (dvisit_cursor c Hp g (rpath x) (N.of_nat (cdepth x)) (val x) []) as Hd;
      cbv beta in Hd, E; rewrite E in Hd; exact Hd)).
    specialize (Hext _ 0 (dclos_init [0%N] c) [] (each_deep trees) (Nat.le_0_l _) eq_refl); unfold walk_all in Ew, Hit, HR'.
    destruct (walk_list (walk (with_rep vis pth)) (dclos_init [0%N] c) (mapi (fun i n => annotate [i] [] (nt n)) 0 trees)) as [g o].
    cbn [fst snd] in *; destruct Hext as (_ & _ & Hext); rewrite Ew; cbn [fst snd].
    assert (E2 : map (tree_map relp) (map (tree_map rel) o) = map (tree_map (fun ax : A * (pos Nd * list N) => (fst ax, rep_pos (snd (snd ax))))) o).
    { rewrite map_map; apply map_ext; intros t; rewrite tree_map_comp; reflexivity. }
    assert (Hrt : Forall (fun ax : A * (pos Nd * list N) => snd (snd ax) <> []) (flat_map preorder o)).
    { apply Forall_forall; intros ax Hin; apply in_flat_map in Hin as (t & Ht & Hin); rewrite Forall_forall in Hext.
      destruct (Hext t Ht) as (i & Hext1).
      assert (Hin' : In (fst ax, snd (snd ax)) (preorder (tree_map rel t))) by (rewrite preorder_map; exact (in_map rel _ _ Hin)).
      revert Hin' Hext1; change (snd (snd ax)) with (snd (fst ax, snd (snd ax))) at 2; generalize (fst ax, snd (snd ax)); cbn [app].
      assert (Hi1 : [i] <> []) by discriminate; revert Hi1; generalize [i]; generalize (tree_map rel t); clear.
      intros t; induction t as [[a q] ts IH] using tree_ind'; intros p Hne ap Hin He; apply ext_paths_node in He as [-> He].
      destruct Hin as [<-|Hin]; [exact Hne|]; apply in_flat_map in Hin as (u & Hu & Hin); rewrite Forall_forall in *.
      destruct (He u Hu) as (j & Hj); apply (IH u Hu (p ++ [j])); auto; destruct p; discriminate. }
    exists (fun i => R i g [] []); split; [|split; [|split; [|split]]].
    - intros i HRi; destruct (sx_next _ _ _ _ _ HR _ _ _ _ HRi None [] [] g eq_refl) as (s1 & Hc1 & HR1 & _); eauto.
    - intros i HRi; apply (Hcl _ _ _ _ HRi).
    - rewrite Forall_forall in *; intros t Ht; rewrite map_map in Ht; apply in_map_iff in Ht as (u & <- & Hu).
      destruct (Hext u Hu) as (i & Hx); exists (N.to_nat i); apply (ext_below _ [i] Hx).
    - rewrite flat_preorder_map; apply Forall_map; eapply Forall_impl; [|eapply items_pok; exact Hit].
      intros ax (p & -> & Hs); exact Hs.
    - exists s'; split; [exact HR'|]; rewrite E2, flat_preorder_map.
      refine (items_map P (fun p xq => pok_rep p xq /\ snd xq <> []) _ (fun xq => rep_pos (snd xq)) _ _ _ _ _).
      + intros p x [[-> Hs] Hne]; split; [apply rep_xpath; exact Hs|]; unfold rooted; cbn; destruct (snd x); [congruence|discriminate].
      + apply items_keep; assumption.
  Qed.

  Lemma each_reported_exact {A} (c : chain V A) ts g0 :
    walk_all (at_node_each_exact (nval gvc) c) g0 ts = let '(g, o) := walk_all (at_node_each_reported (nval gvc) c) g0 ts in (g, map (tree_map fst) o).
  Proof.
    apply walk_all_omap; intros g x _; unfold at_node_each_reported; destruct (at_node_each_exact (nval gvc) c g x) as [g1 [|a dn]]; reflexivity.
  Qed.

  Lemma exact_trees {A} (c : chain V A) trees : has_prune c = true -> small_collection trees ->
    (N.of_nat (length (flat_map (fun n => preorder (nt n)) trees)) <= usize_max)%N ->
    let P := each_chain (into_pipeline_each gvc trees) c in
    let '(gs, outs) := walk_all (at_node_each_exact (nval gvc) c) (dclos_init [0%N] c) (each_positions (map nt trees)) in
    forall k, exists i ahead, calls (trees_next P) k (trees_new P) ⇓ Ok (map (nth_error outs) (seq 0 k), (i, ahead, tt)) /\
      (length outs < k -> closures coll_depth [0%N] (into_pipeline_each gvc trees) c i = dforget c gs).
  Proof.
    intros Hp Hc Hb P; destruct (exact_each_items c trees Hp Hc Hb) as (Dn & Hd & Hcl & Hbw & Hs & iend & Hend & Hi); rewrite each_reported_exact.
    destruct (walk_all (at_node_each_reported (nval gvc) c) (dclos_init [0%N] c) (each_positions (map nt trees))) as [gs outs]; cbn [fst snd] in *.
    intros k; rewrite map_length.
    destruct (trees_all P _ (exact1_len1 unit) Dn Hd _ iend Hbw Hend Hi k) as (i & ahead & E & Hk).
    exists i, ahead; rewrite map_length in Hk; split; [|intros Hlt; apply Hcl; auto].
    rewrite map_map in E; erewrite map_ext in E; [|intros t; rewrite (map_ext (fun x => tree_map fst (tree_map relp x)) (tree_map fst));
      [reflexivity|intros u; rewrite tree_map_comp; reflexivity]]; exact E.
  Qed.

  Lemma exact_fold_trees {A} (c : chain V A) trees : has_prune c = true -> small_collection trees ->
    (N.of_nat (length (flat_map (fun n => preorder (nt n)) trees)) <= usize_max)%N ->
    forall G O (f : G -> list O -> A -> G * O) g,
    let P := each_chain (into_pipeline_each gvc trees) c in
    let '(gs, outs) := walk_all (at_node_each_exact (nval gvc) c) (dclos_init [0%N] c) (each_positions (map nt trees)) in
    forall k, exists i ahead, calls (cfold_next P f) k (consume_new P g) ⇓
      Ok (map (nth_error (snd (fold_all f g outs))) (seq 0 k), (i, ahead, fst (fold_all f g (firstn k outs)))) /\
      (length outs < k -> closures coll_depth [0%N] (into_pipeline_each gvc trees) c i = dforget c gs).
  Proof.
    intros Hp Hc Hb G O f g P; destruct (exact_each_items c trees Hp Hc Hb) as (Dn & Hd & Hcl & Hbw & Hs & iend & Hend & Hi); rewrite each_reported_exact.
    destruct (walk_all (at_node_each_reported (nval gvc) c) (dclos_init [0%N] c) (each_positions (map nt trees))) as [gs outs]; cbn [fst snd] in *.
    intros k; rewrite map_length.
    destruct (cfold_all P _ (exact1_len1 unit) Dn Hd f _ iend g Hbw Hend Hi k) as (i & ahead & E & Hk).
    exists i, ahead; rewrite map_length in Hk; split; [|intros Hlt; apply Hcl; auto].
    rewrite firstn_map, !fold_all_map in E; rewrite firstn_map, !fold_all_map; exact E.
  Qed.

  Lemma exact_fold_path_trees {A} (c : chain V A) trees : has_prune c = true -> small_collection trees ->
    (N.of_nat (length (flat_map (fun n => preorder (nt n)) trees)) <= usize_max)%N ->
    forall G O (f : G -> list O -> list N -> A -> G * O) g,
    let P := each_chain (into_pipeline_each gvc trees) c in
    let '(gs, outs) := walk_all (at_node_each_reported (nval gvc) c) (dclos_init [0%N] c) (each_positions (map nt trees)) in
    forall k, exists i ahead, calls (cfoldp_next P f) k (consume_new P g) ⇓
      Ok (map (nth_error (snd (fold_all (given_path f) g outs))) (seq 0 k), (i, ahead, fst (fold_all (given_path f) g (firstn k outs)))) /\
      (length outs < k -> closures coll_depth [0%N] (into_pipeline_each gvc trees) c i = dforget c gs).
  Proof.
    intros Hp Hc Hb G O f g P; destruct (exact_each_items c trees Hp Hc Hb) as (Dn & Hd & Hcl & Hbw & Hs & iend & Hend & Hi).
    destruct (walk_all (at_node_each_reported (nval gvc) c) (dclos_init [0%N] c) (each_positions (map nt trees))) as [gs outs]; cbn [fst snd] in *.
    intros k; destruct (cfoldp_all P _ (exact1_len1 unit) Dn Hd (exact1_path unit) f _ iend g Hbw Hend Hi k) as (i & ahead & E & Hk).
    exists i, ahead; rewrite map_length in Hk; split; [|intros Hlt; apply Hcl; auto].
    rewrite firstn_map, !fold_all_map in E.
    rewrite (fold_all_ext_in _ (given_path f) outs), (fold_all_ext_in _ (given_path f) (firstn k outs)) in E; [exact E| |];
      intros g1 os ap Hin; unfold given_path; cbn [fst snd]; f_equal; symmetry; apply rep_xpath; rewrite Forall_forall in Hs; apply (Hs ap);
      [apply in_flat_firstn in Hin|]; exact Hin.
  Qed.
End Exact.

(** ** Two prunes, read off the tree *)
Lemma bump_last_snoc v x : bump_last (v ++ [x]) = v ++ [(x + 1)%N].
Proof. induction v as [|y v IH]; [reflexivity|]; cbn [app bump_last]; rewrite IH; destruct (v ++ [x]) eqn:E; [destruct v; discriminate|reflexivity]. Qed.
Lemma drift_same v : drift (length v) v = v.
Proof. unfold drift; rewrite Nat.ltb_irrefl; reflexivity. Qed.
Lemma drift_deeper v : drift (S (length v)) v = v ++ [0%N].
Proof.
  unfold drift; replace (length v <? S (length v)) with true by (symmetry; apply Nat.ltb_lt; lia).
  replace (S (length v) - length v) with 1 by lia; reflexivity.
Qed.
Lemma drift_back d v : d < length v -> drift d v = bump_last (firstn d v).
Proof.
  intros H; unfold drift; replace (length v <? d) with false by (symmetry; apply Nat.ltb_ge; lia).
  replace (d <? length v) with true by (symmetry; apply Nat.ltb_lt; lia); reflexivity.
Qed.
Lemma drift_again d v q : length q = d -> d <= length v -> firstn d v = q -> drift d v = q \/ drift d v = bump_last q.
Proof.
  intros Hq Hl Hp; apply Nat.lt_eq_cases in Hl as [Hl| ->].
  - right; rewrite drift_back, Hp by exact Hl; reflexivity.
  - left; rewrite firstn_all in Hp; subst; apply drift_same.
Qed.

Section Two.
  Context {Nd A B G : Type} (val : Nd -> A) (f g : list N -> A -> bool) (lab : A -> list N -> B).
  Context (vis : G -> pos Nd -> G * outcome B) (cur : G -> list N).
  Hypothesis Hcur : forall s x, cur (fst (vis s x)) = drift (length (pos_path x)) (cur s).
  Hypothesis Hvis : forall s x, snd (vis s x) =
    if f (map N.of_nat (pos_path x)) (val (pos_here x)) then Drop
    else if g (drift (length (pos_path x)) (cur s)) (val (pos_here x)) then Drop
    else Keep (lab (val (pos_here x)) (drift (length (pos_path x)) (cur s))) true.

  Notation F := (fun p => f (map N.of_nat p)).
  Notation Gq := (fun q => g (map N.of_nat q)).
  Notation L := (tree_map (fun aq : A * list nat => lab (fst aq) (map N.of_nat (snd aq)))).

  Lemma two_walk (t : tree Nd) : forall p q ab s, length q = length p -> drift (length p) (cur s) = map N.of_nat q ->
    let '(s1, o) := walk vis s (annotate p ab t) in
    o = option_map L (two_prunes F Gq p q (tree_map val t)) /\ length p <= length (cur s1) /\ firstn (length p) (cur s1) = map N.of_nat q /\
    drift (length p) (cur s1) = match o with None => map N.of_nat q | Some _ => match subs t with [] => map N.of_nat q | _ :: _ => bump_last (map N.of_nat q) end end.
  Proof.
    induction t as [v ts IH] using tree_ind'; intros p q ab s Hl Hd.
    cbn [annotate tree_map]; rewrite walk_node.
    pose proof (Hcur s (mkPos p ab v)) as Hc; pose proof (Hvis s (mkPos p ab v)) as Hv; cbn [pos_path pos_here] in Hc, Hv.
    destruct (vis s (mkPos p ab v)) as [s1 o]; cbn [fst snd] in Hc, Hv; subst o; rewrite Hd in *; cbn [two_prunes].
    assert (Hlq : length (map N.of_nat q) = length p) by (rewrite map_length; exact Hl).
    assert (Hstop : length p <= length (cur s1) /\ firstn (length p) (cur s1) = map N.of_nat q /\ drift (length p) (cur s1) = map N.of_nat q).
    { rewrite Hc, Hlq; repeat split; [lia|apply firstn_all2; lia|rewrite <- Hlq; apply drift_same]. }
    destruct (f (map N.of_nat p) (val v)) eqn:Ef; [cbn; tauto|].
    destruct (g (map N.of_nat q) (val v)) eqn:Eg; [cbn; tauto|].
    assert (Hk : forall ts', Forall (fun t => forall p q ab s, length q = length p -> drift (length p) (cur s) = map N.of_nat q ->
        let '(s1, o) := walk vis s (annotate p ab t) in
        o = option_map L (two_prunes F Gq p q (tree_map val t)) /\ length p <= length (cur s1) /\ firstn (length p) (cur s1) = map N.of_nat q /\
        drift (length p) (cur s1) = match o with None => map N.of_nat q | Some _ => match subs t with [] => map N.of_nat q | _ :: _ => bump_last (map N.of_nat q) end end) ts' ->
      forall i c s, drift (S (length p)) (cur s) = map N.of_nat (q ++ [c]) ->
        (length p < length (cur s) -> firstn (length p) (cur s) = map N.of_nat q) ->
        let '(s1, os) := walk_list (walk vis) s (mapi (fun i t => annotate (p ++ [i]) (ab ++ [v]) t) i ts') in
        os = map L (two_prunes_kids (two_prunes F Gq) p q i c (map (tree_map val) ts')) /\ (ts' = [] -> s1 = s) /\
        (ts' <> [] \/ length p < length (cur s) -> length p < length (cur s1) /\ firstn (length p) (cur s1) = map N.of_nat q)).
    { clear - Hl; intros ts' IH; induction IH as [|t ts' Ht _ IHl]; intros i c s Hd Hf.
      - cbn [mapi map]; rewrite walk_list_nil; split; [reflexivity|]; split; [reflexivity|]; intros [Hx|Hx]; [congruence|auto].
      - rewrite mapi_cons, walk_list_cons; cbn [map two_prunes_kids].
        assert (Hlen : length (p ++ [i]) = S (length p)) by (rewrite app_length; cbn; lia).
        specialize (Ht (p ++ [i]) (q ++ [c]) (ab ++ [v]) s); rewrite Hlen in Ht.
        specialize (Ht ltac:(rewrite app_length; cbn; lia) Hd).
        destruct (walk vis s (annotate (p ++ [i]) (ab ++ [v]) t)) as [s1 o]; destruct Ht as (Ho & Hl1 & Hp1 & Hd1).
        assert (Hp2 : firstn (length p) (cur s1) = map N.of_nat q).
        { replace (length p) with (min (length p) (S (length p))) by lia.
          rewrite <- firstn_firstn, Hp1, map_app, firstn_app, map_length, Hl, Nat.sub_diag; cbn [firstn]; rewrite app_nil_r.
          rewrite <- Hl, <- (map_length N.of_nat q); apply firstn_all. }
        set (c' := match o with None => c | Some _ => match subs t with [] => c | _ :: _ => S c end end).
        assert (Hd2 : drift (S (length p)) (cur s1) = map N.of_nat (q ++ [c'])).
        { rewrite Hd1; subst c'; destruct o as [?|]; [|reflexivity]; destruct (subs t); [reflexivity|].
          rewrite !map_app; cbn [map]; rewrite bump_last_snoc; do 2 f_equal; lia. }
        specialize (IHl (S i) c' s1 Hd2 (fun _ => Hp2)).
        destruct (walk_list (walk vis) s1 (mapi (fun i t => annotate (p ++ [i]) (ab ++ [v]) t) (S i) ts')) as [s2 os].
        destruct IHl as (Hos & _ & Hend); split; [|split; [discriminate|intros _; apply Hend; right; lia]].
        subst os; subst c'.
        fold (@two_prunes_kids A (tree (A * list nat))).
        destruct (two_prunes F Gq (p ++ [i]) (q ++ [c]) (tree_map val t)) as [u|]; cbn [option_map] in Ho; subst o; cbn [opt_list app map]; [|reflexivity].
        destruct t as [w us]; cbn [subs tree_map]; destruct us; reflexivity. }
    specialize (Hk ts IH 0 0 s1).
    destruct (walk_list (walk vis) s1 (mapi (fun i t => annotate (p ++ [i]) (ab ++ [v]) t) 0 ts)) as [s2 os].
    destruct Hk as (Hos & Hnil & Hend).
    { rewrite Hc, <- Hlq, drift_deeper, map_app; reflexivity. }
    { rewrite Hc; lia. }
    subst os; cbn [option_map tree_map fst snd subs]; split; [reflexivity|].
    destruct ts as [|t ts].
    - rewrite (Hnil eq_refl); exact Hstop.
    - destruct (Hend ltac:(left; discriminate)) as (Hl2 & Hp2); repeat split; [lia|exact Hp2|].
      rewrite drift_back, Hp2 by exact Hl2; reflexivity.
  Qed.
End Two.

(** ** When the reported paths are right *)
Section Right.
  Context {A : Type} (f : A -> bool).
  Notation run := (two_prunes (fun _ : list nat => f) (fun (_ : list nat) (_ : A) => false)).
  Notation kids := (two_prunes_kids run).

  Fixpoint labels_ok (q : list nat) (u : tree (A * list nat)) : Prop :=
    match u with
    | TNode vq us => snd vq = q /\
        (fix all (j : nat) (l : list (tree (A * list nat))) : Prop := match l with [] => True | u :: l' => labels_ok (q ++ [j]) u /\ all (S j) l' end) 0 us
    end.
  Fixpoint all_ok (q : list nat) (j : nat) (l : list (tree (A * list nat))) : Prop :=
    match l with [] => True | u :: l' => labels_ok (q ++ [j]) u /\ all_ok q (S j) l' end.
  Lemma labels_ok_node q vq us : labels_ok q (TNode vq us) <-> snd vq = q /\ all_ok q 0 us.
  Proof.
    cbn; split; intros [H1 H2]; (split; [exact H1|]); clear H1; revert H2; generalize 0 as j; induction us as [|u us IH]; intros j; cbn; try (intros _; exact I);
      intros [H1 H2]; (split; [exact H1|apply IH; exact H2]).
  Qed.

  Lemma labels_annotate (u : tree (A * list nat)) : forall q ab, labels_ok q u <-> tree_map (fun x => (pos_here x, pos_path x)) (annotate q ab (tree_map fst u)) = u.
  Proof.
    induction u as [[v q0] us IH] using tree_ind'; intros q ab; rewrite labels_ok_node; cbn [tree_map annotate fst snd pos_here pos_path].
    assert (Hk : forall j, all_ok q j us <-> map (tree_map (fun x => (pos_here x, pos_path x))) (mapi (fun i t => annotate (q ++ [i]) (ab ++ [v]) t) j (map (tree_map fst) us)) = us).
    { induction IH as [|u us Hu _ IHl]; intros j; [cbn; tauto|]; cbn [map]; rewrite mapi_cons; cbn [map all_ok]; rewrite (Hu _ (ab ++ [v])), IHl.
      split; [intros [-> ->]; reflexivity|]; intros E; injection E as E1 E2; auto. }
    rewrite Hk; split; [intros [-> E]; f_equal; exact E|]; intros E; injection E as E1 E2; auto.
  Qed.

  Lemma run_drop p q t : run p q t = None <-> f (root t) = true.
  Proof. destruct t as [v ts]; cbn; destruct (f v); split; congruence. Qed.
  Lemma run_label p q t u : run p q t = Some u -> snd (root u) = q.
  Proof. destruct t as [v ts]; cbn; destruct (f v); [discriminate|]; intros E; injection E as <-; reflexivity. Qed.

  Lemma early_kids v ts : f v = false -> (no_early_leaf f (TNode v ts) <->
    Forall (fun u => subs u <> []) (removelast (kept_kids f (TNode v ts))) /\ Forall (no_early_leaf f) ts).
  Proof.
    intros Ev; split.
    - intros Hn; split; [apply Hn, kept_root; exact Ev|]; apply Forall_forall; intros u Hu s Hs.
      apply Hn; eapply kept_below; [exact Ev|exact Hu|exact Hs].
    - intros [H1 H2] s Hs; inversion Hs as [t Ht|t u s' Ht Hu Hs']; subst; [exact H1|].
      rewrite Forall_forall in H2; apply (H2 u Hu s Hs').
  Qed.
  Lemma dropped_fine t : f (root t) = true -> no_early_leaf f t.
  Proof. intros E s Hs; inversion Hs; congruence. Qed.

  Lemma right_iff (t : tree A) : forall p q u, run p q t = Some u -> (labels_ok q u <-> no_early_leaf f t).
  Proof.
    induction t as [v ts IH] using tree_ind'; intros p q u; cbn [two_prunes]; destruct (f v) eqn:Ev; [discriminate|].
    intros E; injection E as <-; rewrite labels_ok_node, early_kids by exact Ev; cbn [snd].
    assert (Hk : forall i c j, c <= j -> (all_ok q j (kids p q i c ts) <->
       match filter (fun u => negb (f (root u))) ts with
       | [] => True
       | _ :: _ => c = j /\ Forall (fun u => subs u <> []) (removelast (filter (fun u => negb (f (root u))) ts)) /\ Forall (no_early_leaf f) ts
       end)).
    { clear Ev; induction IH as [|t ts Ht _ IHl]; intros i c j Hc; [cbn; tauto|].
      cbn [two_prunes_kids filter].
      destruct (run (p ++ [i]) (q ++ [c]) t) as [u|] eqn:E.
      - assert (Ef : f (root t) = false) by (destruct (f (root t)) eqn:E0; [|reflexivity]; apply (proj2 (run_drop (p ++ [i]) (q ++ [c]) t)) in E0; congruence).
        rewrite Ef; cbn [negb all_ok].
        fold (kids p q (S i) (match subs t with [] => c | _ :: _ => S c end) ts).
        specialize (Ht _ _ _ E); pose proof (run_label _ _ _ _ E) as Hlab.
        set (c' := match subs t with [] => c | _ :: _ => S c end) in *.
        assert (Hc' : c' <= S j) by (subst c'; destruct (subs t); lia).
        rewrite (IHl (S i) c' (S j) Hc').
        assert (Hq : labels_ok (q ++ [j]) u -> c = j).
        { destruct u as [vq us]; intros Hu; apply labels_ok_node in Hu as [Hu _]; cbn in Hlab; rewrite Hlab in Hu; apply app_inj_tail in Hu; tauto. }
        destruct (filter (fun u => negb (f (root u))) ts) as [|k ks] eqn:Ek.
        + cbn [removelast]; split.
          * intros [Hu _]; pose proof (Hq Hu) as Hcj; subst c; split; [reflexivity|]; split; [constructor|]; constructor; [apply Ht; exact Hu|].
            apply Forall_forall; intros y Hy; apply dropped_fine; destruct (f (root y)) eqn:Ey; [reflexivity|].
            assert (In y []) by (rewrite <- Ek; apply filter_In; rewrite Ey; auto); contradiction.
          * intros (-> & _ & Hn); inversion Hn; subst; split; [apply Ht; assumption|exact I].
        + change (removelast (t :: k :: ks)) with (t :: removelast (k :: ks)); split.
          * intros (Hu & Hcc & H1 & H2); pose proof (Hq Hu) as Hcj; subst c; split; [reflexivity|].
            split; constructor; auto; [|apply Ht; exact Hu]; subst c'; destruct (subs t); [lia|discriminate].
          * intros (-> & H1 & H2); inversion H1; inversion H2; subst; split; [apply Ht; assumption|].
            split; [|split; assumption]; subst c'; destruct (subs t); [congruence|reflexivity].
      - assert (Ef : f (root t) = true) by (eapply run_drop; exact E).
        rewrite Ef; cbn [negb]; fold (kids p q (S i) c ts); rewrite (IHl (S i) c j Hc).
        destruct (filter (fun u => negb (f (root u))) ts); [tauto|].
        split; intros (H1 & H2 & H3); (split; [exact H1|]); (split; [exact H2|]); [constructor; [apply dropped_fine; exact Ef|exact H3]|inversion H3; assumption]. }
    unfold kept_kids; cbn [subs]; rewrite Hk by lia.
    destruct (filter (fun u => negb (f (root u))) ts) as [|k ks] eqn:Ek; [|tauto].
    cbn [removelast]; split; [|tauto]; intros [_ _]; split; [constructor|].
    apply Forall_forall; intros y Hy; apply dropped_fine; destruct (f (root y)) eqn:Ey; [reflexivity|].
    assert (In y []) by (rewrite <- Ek; apply filter_In; rewrite Ey; auto); contradiction.
  Qed.
End Right.

(** ** For pipelines *)
Section TwoPipes.
  Context {Nd V : Type} (gvc : Nd -> V * list Nd) (nt : Nd -> tree Nd).
  Hypothesis H : node_tree gvc nt.

  Lemma two_prunes_collect (f g : list N -> V -> bool) n : (N.of_nat (length (preorder (nt n))) <= usize_max)%N ->
    exists s, collect_tree (tree_chain (into_pipeline gvc n)
        (c_prune_path (c_prune_path c_start tt (fun _ p v => (tt, f p v))) tt (fun _ p v => (tt, g p v)))) ⇓
      Ok (option_map (tree_map fst) (two_prunes (fun p => f (map N.of_nat p)) (fun q => g (map N.of_nat q)) [] [] (tree_map (nval gvc) (nt n))), s).
  Proof.
    intros Hb; set (c := c_prune_path (c_prune_path c_start tt (fun _ p v => (tt, f p v))) tt (fun _ p v => (tt, g p v))).
    pose proof (exact_collect gvc nt H c n eq_refl Hb) as Hc.
    pose proof (two_walk (nval gvc) f g (fun a _ => a) (at_node_exact (nval gvc) c) (fun s => snd (snd (fst s)))) as Hw.
    specialize (Hw ltac:(intros s x; unfold at_node_exact; cbn; rewrite map_length; destruct (f _ _); [reflexivity|]; destruct (g _ _); reflexivity)).
    specialize (Hw ltac:(intros s x; unfold at_node_exact; cbn; rewrite map_length; destruct (f _ _); [reflexivity|]; destruct (g _ _); reflexivity)).
    specialize (Hw (nt n) [] [] [] (dclos_init [] c) eq_refl eq_refl); unfold positions in Hc.
    destruct (walk (at_node_exact (nval gvc) c) (dclos_init [] c) (annotate [] [] (nt n))) as [gs o].
    destruct Hw as (-> & _), Hc as (s & Hc & _); exists s; exact Hc.
  Qed.

  Lemma prune_fold_path (f : V -> bool) n : (N.of_nat (length (preorder (nt n))) <= usize_max)%N ->
    forall G O (F : G -> list O -> list N -> V -> G * O) g,
    let o := two_prunes (fun _ => f) (fun _ _ => false) [] [] (tree_map (nval gvc) (nt n)) in
    let F' := fun g os (vq : V * list nat) => F g os (map N.of_nat (snd vq)) (fst vq) in
    exists s, fold_path (tree_chain (into_pipeline gvc n) (c_prune c_start tt (fun _ v => (tt, f v)))) F g ⇓
      Ok (option_map (fun t => snd (fold_up F' g t)) o, match o with Some t => fst (fold_up F' g t) | None => g end, s).
  Proof.
    intros Hb G O F g o F'; set (c := c_prune c_start tt (fun _ v => (tt, f v))).
    pose proof (exact_fold_path gvc nt H c n eq_refl Hb G O F g) as Hc.
    pose proof (two_walk (nval gvc) (fun _ => f) (fun _ _ => false) (fun a q => (a, q)) (at_node_reported (nval gvc) c) (fun s => snd (snd s))) as Hw.
    specialize (Hw ltac:(intros s x; unfold at_node_reported, at_node_exact; cbn; rewrite map_length; destruct (f _); reflexivity)).
    specialize (Hw ltac:(intros s x; unfold at_node_reported, at_node_exact; cbn; rewrite map_length; destruct (f _); reflexivity)).
    specialize (Hw (nt n) [] [] [] (dclos_init [] c) eq_refl eq_refl); unfold positions in Hc.
    destruct (walk (at_node_reported (nval gvc) c) (dclos_init [] c) (annotate [] [] (nt n))) as [gs u].
    destruct Hw as (-> & _), Hc as (s & Hc & _); exists s; fold o in Hc; cbv beta in Hc.
    destruct o as [t|]; cbn [option_map] in Hc |- *; [|exact Hc].
    rewrite fold_up_map in Hc; exact Hc.
  Qed.
End TwoPipes.

(** The paths in the order in which a fold sees them. *)
Lemma fold_log {X} (h : X -> list N) (t : tree X) : forall log,
  fold_up (fun log (_ : list unit) x => (log ++ [h x], tt)) log t = (log ++ map h (postorder t), tt).
Proof.
  induction t as [x ts IH] using tree_ind'; intros log; cbn [fold_up postorder].
  assert (Hk : forall log, fst (fold_list (fold_up (fun log (_ : list unit) x => (log ++ [h x], tt))) log ts) = log ++ map h (flat_map postorder ts)).
  { clear log; induction IH as [|t ts Ht _ IHl]; intros log; [cbn; rewrite app_nil_r; reflexivity|].
    rewrite fold_list_cons, Ht; specialize (IHl (log ++ map h (postorder t))).
    destruct (fold_list (fold_up (fun log (_ : list unit) x => (log ++ [h x], tt))) (log ++ map h (postorder t)) ts) as [g1 os]; cbn [fst] in *.
    rewrite IHl; cbn [flat_map]; rewrite map_app, app_assoc; reflexivity. }
  specialize (Hk log); destruct (fold_list (fold_up (fun log (_ : list unit) x => (log ++ [h x], tt))) log ts) as [g1 os]; cbn [fst] in Hk; subst.
  rewrite map_app, app_assoc; reflexivity.
Qed.

Lemma postorder_map {X Y} (h : X -> Y) (t : tree X) : postorder (tree_map h t) = map h (postorder t).
Proof.
  induction t as [x ts IH] using tree_ind'; cbn; rewrite map_app; f_equal.
  induction IH as [|t ts Ht _ IHl]; [reflexivity|]; cbn; rewrite Ht, IHl, map_app; reflexivity.
Qed.
Lemma postorder_size {X Y} (h : X -> Y) (t : tree X) : length (postorder (tree_map h t)) = length (postorder t).
Proof. rewrite postorder_map, map_length; reflexivity. Qed.

(** Trees of the same shape are equal if their nodes are. *)
Lemma same_postorder {X Y} (h : X -> Y) (t : tree X) : forall u : tree X, tree_map h t = tree_map h u -> postorder t = postorder u -> t = u.
Proof.
  induction t as [x ts IH] using tree_ind'; intros [y us]; cbn [tree_map postorder]; intros E1 E2; injection E1 as _ E1.
  apply app_inj_tail in E2 as [E2 ->]; f_equal.
  revert us E1 E2; induction IH as [|t ts Ht _ IHl]; intros [|u us] E1 E2; try discriminate; [reflexivity|].
  cbn [map flat_map] in E1, E2; injection E1 as E1 E1'.
  assert (El : length (postorder t) = length (postorder u)) by (rewrite <- (postorder_size h t), E1, postorder_size; reflexivity).
  assert (E3 : postorder t = postorder u).
  { apply (f_equal (firstn (length (postorder t)))) in E2; rewrite !firstn_app, El, !Nat.sub_diag in E2; cbn [firstn] in E2.
    rewrite !app_nil_r in E2; rewrite firstn_all in E2; rewrite <- El, firstn_all in E2; exact E2. }
  rewrite E3 in E2; apply app_inv_head in E2; rewrite (Ht u E1 E3), (IHl us E1' E2); reflexivity.
Qed.

Lemma annotate_here {X} (t : tree X) : forall p ab, tree_map pos_here (annotate p ab t) = t.
Proof.
  induction t as [x ts IH] using tree_ind'; intros p ab; cbn; f_equal; generalize 0 as i.
  induction IH as [|t ts Ht _ IHl]; intros i; [reflexivity|]; rewrite mapi_cons; cbn [map]; rewrite Ht, IHl; reflexivity.
Qed.

Lemma two_prunes_pruned {A} (f : list nat -> A -> bool) (t : tree A) : forall p q,
  option_map (tree_map fst) (two_prunes f (fun _ _ => false) p q t) = prune_at f p t.
Proof.
  induction t as [v ts IH] using tree_ind'; intros p q; cbn [two_prunes prune_at]; destruct (f p v); [reflexivity|]; cbn [option_map tree_map fst].
  do 2 f_equal.
  assert (Hk : forall i c, map (tree_map fst) (two_prunes_kids (two_prunes f (fun _ _ => false)) p q i c ts) =
    concat (mapi (fun i c => opt_list (prune_at f (p ++ [i]) c)) i ts)); [|apply Hk].
  induction IH as [|t ts Ht _ IHl]; intros i c; [reflexivity|]; rewrite mapi_cons; cbn [two_prunes_kids concat]; rewrite <- (Ht (p ++ [i]) (q ++ [c])).
  destruct (two_prunes f (fun _ _ => false) (p ++ [i]) (q ++ [c]) t) as [u|]; cbn [option_map opt_list app map]; [|apply IHl].
  f_equal; apply IHl.
Qed.

Lemma map_of_nat_inj (p q : list nat) : map N.of_nat p = map N.of_nat q -> p = q.
Proof. revert q; induction p as [|x p IH]; intros [|y q] E; try discriminate; [reflexivity|]; cbn in E; injection E as E1 E2; f_equal; [lia|auto]. Qed.

Lemma prune_paths_right {Nd V} (gvc : Nd -> V * list Nd) nt (H : node_tree gvc nt) (f : V -> bool) n t' :
  (N.of_nat (length (preorder (nt n))) <= usize_max)%N -> prune_tree f (tree_map (nval gvc) (nt n)) = Some t' ->
  ((exists s, fold_path (tree_chain (into_pipeline gvc n) (c_prune c_start tt (fun _ v => (tt, f v))))
       (fun log (_ : list unit) p _ => (log ++ [p], tt)) [] ⇓ Ok (Some tt, map (fun x => map N.of_nat (pos_path x)) (postorder (positions t')), s)) <->
   no_early_leaf f (tree_map (nval gvc) (nt n))).
Proof.
  intros Hb Ht'; destruct (prune_fold_path gvc nt H f n Hb _ _ (fun log (_ : list unit) p _ => (log ++ [p], tt)) []) as (s & Hs); cbv zeta in Hs.
  unfold prune_tree in Ht'; rewrite <- (two_prunes_pruned _ _ [] []) in Ht'.
  destruct (two_prunes (fun _ => f) (fun _ _ => false) [] [] (tree_map (nval gvc) (nt n))) as [u|] eqn:Eu; [|discriminate].
  injection Ht' as <-; rewrite <- (right_iff f _ _ _ _ Eu), (labels_annotate f _ [] []).
  cbn [option_map] in Hs; rewrite (fold_log (fun vq : V * list nat => map N.of_nat (snd vq))) in Hs; cbn [fst snd app] in Hs.
  assert (Hlog : map (fun vq : V * list nat => map N.of_nat (snd vq)) (postorder u) = map (fun x => map N.of_nat (pos_path x)) (postorder (positions (tree_map fst u))) <->
    tree_map (fun x => (pos_here x, pos_path x)) (annotate [] [] (tree_map fst u)) = u).
  { split.
    - intros E; apply (same_postorder fst); [rewrite tree_map_map; apply annotate_here|].
      rewrite postorder_map; fold (positions (tree_map fst u)).
      assert (E1 : map fst (postorder u) = map pos_here (postorder (positions (tree_map fst u)))).
      { rewrite <- !postorder_map; unfold positions; rewrite annotate_here; reflexivity. }
      revert E E1; generalize (postorder u) (postorder (positions (tree_map fst u))); clear.
      intros l; induction l as [|[v q] l IH]; intros [|x l'] E E1; try discriminate; [reflexivity|].
      cbn in *; injection E as E E'; injection E1 as E1 E1'; apply map_of_nat_inj in E; subst; f_equal; auto.
    - intros E; rewrite <- E at 1; rewrite postorder_map, map_map; reflexivity. }
  rewrite <- Hlog; split.
  - intros (s' & Hs'); pose proof (conv_fun _ _ _ Hs Hs') as E; injection E as E _; exact E.
  - intros E; exists s; rewrite <- E; exact Hs.
Qed.
