(** * Property C60: user code that panics inside a pipeline.

    The caller of [next()] on a pipeline may catch a panic of one of its closures (or of [get_value_and_children])
    and go on.  The chains whose closures may panic and what they should give are in SpecUnwindPipe.v, the pipelines in
    ModelUnwindPipe.v. *)
From Verif Require Import Prelim PrelimFacts Spec SpecFacts ModelUnwind SpecUnwind SpecPipe SpecUnwindPipe SpecObs ModelNode NodeFacts ModelPre ModelPipe
  ModelUnwindPipe ProofsPlain ProofsUnwind ProofsUnwindIn Slots PipeCore PipeBase PipeChain PipeEnd ProofsPipe PipeFinal ProofsUnwindPipe PropUnwind.

Lemma delivers_weaken {S A X G} (next : nat -> S -> Res (option A * S)) path (states : S -> G) s (p q : list N -> A * X -> Prop) l g :
  (forall r x, In x l -> p r x -> q r x) -> delivers next path states s p l g -> delivers next path states s q l g.
Proof.
  intros Hpq Hd k; destruct (Hd k) as (s' & Hc & Hp & Hg); exists s'; split; [exact Hc|split; [|exact Hg]].
  intros i x Ek Hi; apply Hpq; [apply nth_error_In in Hi; exact Hi|apply (Hp i x Ek Hi)].
Qed.

(** ** What the calls give: the results of the walk in preorder, panics in their place *)
Theorem C60_chain : forall Nd V (gvc : Nd -> option (V * list Nd)) nt, fnode_tree gvc nt ->
  forall A (c : uchain V A) n, utrue_paths c = true ->
  (uhas_prune c = true -> (N.of_nat (length (preorder (nt n))) <= usize_max)%N) ->
  let '(gs, o) := walk (with_node (uat_node (seen gvc) c)) (uclos_init c) (positions (nt n)) in
  let P := utree_chain (uinto_pipeline gvc n) c in
  delivers (p_next P) (p_path P) (uclosures tree_depth [] (uinto_pipeline gvc n) c) (p_init P) path_length (flat_map preorder (opt_list o)) gs.
Proof.
  intros Nd V gvc nt H A c n Ht Hb; pose proof (unary_gives gvc nt H c n Ht Hb) as Hd.
  destruct (walk _ _ _) as [gs o]; cbn [fst snd] in Hd.
  eapply delivers_weaken; [|exact Hd].
  intros p [[a|] x] _; unfold pok_of, path_length; cbn; [|auto].
  destruct (uhas_prune c); [auto|]; intros ->; apply map_length.
Qed.
Print Assumptions C60_chain.

(** Without prunes the path is right after every call that ends with an item or a panic. *)
Theorem C60_chain_path : forall Nd V (gvc : Nd -> option (V * list Nd)) nt, fnode_tree gvc nt ->
  forall A (c : uchain V A) n, uhas_prune c = false -> (N.of_nat (length (preorder (nt n))) <= usize_max)%N ->
  let '(gs, o) := walk (with_node (uat_node (seen gvc) c)) (uclos_init c) (positions (nt n)) in
  let P := utree_chain (uinto_pipeline gvc n) c in
  delivers (p_next P) (p_path P) (uclosures tree_depth [] (uinto_pipeline gvc n) c) (p_init P) true_path (flat_map preorder (opt_list o)) gs.
Proof.
  intros Nd V gvc nt H A c n Hn Hb.
  assert (Ht : utrue_paths c = true).
  { clear - Hn; induction c as [|A B G c IH g f|A G c IH g f|A G c IH g f|A c IH lim]; cbn in *; auto; discriminate. }
  pose proof (unary_gives gvc nt H c n Ht (fun _ => Hb)) as Hd.
  pose proof (walk_in (uat_node (seen gvc) c) (positions (nt n)) (uclos_init c)) as Hin.
  destruct (walk _ _ _) as [gs o]; cbn [fst snd] in Hd, Hin; rewrite Hn in Hd.
  eapply delivers_weaken; [|exact Hd].
  intros p [b x] Hx Hp; specialize (Hin _ Hx); cbn in Hin; unfold true_path; cbn.
  rewrite <- (xpath_small _ _ Hin Hb); destruct b; exact Hp.
Qed.
Print Assumptions C60_chain_path.

(** Binary trees: always. *)
Theorem C60_chain_binary : forall Nd V (gvcb : Nd -> option (V * (option Nd * option Nd))) bt, fnode_btree gvcb bt ->
  forall A (c : uchain V A) n,
  let '(gs, o) := bwalk (with_node (uat_node (seen gvcb) c)) (uclos_init c) (bpositions (bt n)) in
  let P := ubtree_chain (uinto_pipeline_binary gvcb n) c in
  delivers (p_next P) (p_path P) (uclosures_binary tree_depth (uinto_pipeline_binary gvcb n) c) (p_init P) true_path
    (flat_map preorder (opt_list (option_map flat o))) gs.
Proof.
  intros Nd V gvcb bt H A c n; pose proof (ubinary_gives gvcb bt H c n) as Hd.
  pose proof (bwalk_in (uat_node (seen gvcb) c) (bpositions (bt n)) (uclos_init c)) as Hin.
  destruct (bwalk _ _ _) as [gs o]; cbn [fst snd] in Hd, Hin.
  eapply delivers_weaken; [|exact Hd].
  intros p [b x] Hx Hp; specialize (Hin _ Hx); cbn in Hin; unfold true_path; cbn.
  rewrite <- (bxpath _ _ Hin); destruct b; exact Hp.
Qed.
Print Assumptions C60_chain_binary.

(** A chain with every stage.  The map counts its calls and panics on 4, the prune of even paths panics at the path [2]
    (n-ary) and the second map panics on its third call. *)
Definition shy_chain : uchain nat nat :=
  u_prune_depth (u_map (u_prune_path (u_map u_start 0 (fun g v => (g + 1, if v =? 4 then None else Some (10 * v + g)))) 0
     (fun g p v => (g + 1, match p with [2%N] => None | [2%N; 0%N] => Some true | _ => Some false end))) 0
     (fun g v => (g + 1, if g =? 2 then None else Some v))) 2.
Example C60_ex_met : utrue_paths shy_chain = true /\ (N.of_nat (length (preorder (shy_nt shy_tree))) <= usize_max)%N.
Proof. split; [reflexivity|vm_compute; discriminate]. Qed.
Example C60_ex : exists s1 s2,
  calls (p_next (utree_chain (uinto_pipeline shy_gvc shy_tree) shy_chain)) 8 (p_init (utree_chain (uinto_pipeline shy_gvc shy_tree) shy_chain)) 40 =
    Ok ([Some (Got 10); Some (Got 21); Some Unwound; Some Unwound; Some Unwound; Some Unwound; None; None], s1) /\
  uclosures tree_depth [] (uinto_pipeline shy_gvc shy_tree) shy_chain s1 = (((tt, 5), 4), 2) /\
  calls (p_next (ubtree_chain (uinto_pipeline_binary shy_gvcb shy_btree) shy_chain)) 8 (p_init (ubtree_chain (uinto_pipeline_binary shy_gvcb shy_btree) shy_chain)) 40 =
    Ok ([Some (Got 10); Some (Got 21); Some Unwound; Some Unwound; Some Unwound; Some (Got 54); Some Unwound; None], s2).
Proof. eexists; eexists; split; [vm_compute; reflexivity|]; split; vm_compute; reflexivity. Qed.

(** ** A panic before [prune_depth] breaks its limit

    One would like [prune_depth(0)] to give nothing below the root, whatever panics.  If the closure of a map before it panics
    on the root, once, all the other nodes are given. *)
Definition once {V} (first : bool) (v : V) : bool * option V := if first then (false, None) else (false, Some v).

Lemma walk_all_kept {G X B} (v : G -> X -> G * SpecPipe.outcome B) (w : X -> B) g t :
  (forall x, In x (preorder t) -> v g x = (g, Keep (w x) true)) -> walk v g t = (g, Some (tree_map w t)).
Proof.
  induction t as [x ts IH] using tree_ind'; intros H; rewrite walk_node, H by (left; reflexivity).
  assert (E : walk_list (walk v) g ts = (g, map (tree_map w) ts)).
  { assert (Hts : forall y, In y (flat_map preorder ts) -> v g y = (g, Keep (w y) true)) by (intros y Hy; apply H; right; exact Hy).
    clear H; induction IH as [|t ts Ht _ IHl]; [reflexivity|].
    rewrite walk_list_cons, Ht by (intros y Hy; apply Hts; cbn; apply in_or_app; auto).
    rewrite IHl by (intros y Hy; apply Hts; cbn; apply in_or_app; auto); reflexivity. }
  rewrite E; reflexivity.
Qed.

Theorem C60_prune_depth_refuted : forall Nd V (gvc : Nd -> option (V * list Nd)) nt, fnode_tree gvc nt ->
  forall n, let P := utree_chain (uinto_pipeline gvc n) (u_prune_depth (u_map u_start true once) 0) in
  yields (p_next P) (p_init P) (Unwound :: map (seen gvc) (tl (preorder (nt n)))).
Proof.
  intros Nd V gvc nt H n P.
  pose proof (C60_chain Nd V gvc nt H V (u_prune_depth (u_map u_start true once) 0) n eq_refl ltac:(discriminate)) as Hd.
  set (vis := uat_node (seen gvc) (u_prune_depth (u_map u_start true once) 0)) in Hd.
  assert (Hw : exists g o, walk (with_node vis) (uclos_init (u_prune_depth (u_map (V := V) u_start true once) 0)) (positions (nt n)) = (g, Some o) /\
                map fst (preorder o) = Unwound :: map (seen gvc) (tl (preorder (nt n)))).
  { unfold positions; rewrite (H n); destruct (gvc n) as [[v kids]|] eqn:En.
    - cbn [annotate]; rewrite walk_node.
      replace (with_node vis (uclos_init (u_prune_depth (u_map (V := V) u_start true once) 0)) (mkPos [] [] n))
        with ((tt, false), Keep (@Unwound V, mkPos [] [] n) true)
        by (unfold with_node, vis, uat_node, seen; cbn; rewrite En; reflexivity).
      set (cs := mapi _ _ _).
      assert (Hcs : forall x, In x (flat_map preorder cs) -> pos_path x <> []).
      { intros x Hx; unfold cs in Hx; apply in_flat_map in Hx as (t & Ht & Hx).
        apply In_nth_error in Ht as (i & Ht); rewrite nth_error_mapi in Ht.
        destruct (nth_error (map nt kids) i) as [t'|]; [|discriminate]; cbn in Ht; injection Ht as <-.
        destruct (annotate_indexes _ _ _ _ Hx) as (q & -> & _); discriminate. }
      assert (E : walk_list (walk (with_node vis)) (tt, false) cs = ((tt, false), map (tree_map (fun x => (seen gvc (pos_here x), x))) cs)).
      { assert (Hv : forall x, In x (flat_map preorder cs) -> with_node vis (tt, false) x = ((tt, false), Keep (seen gvc (pos_here x), x) true)).
        { intros x Hx; specialize (Hcs x Hx); unfold with_node, vis, uat_node; cbn.
          unfold seen; destruct (gvc (pos_here x)) as [[v' k']|]; cbn; [|reflexivity].
          destruct (pos_path x); [congruence|reflexivity]. }
        clear Hcs; induction cs as [|t cs IH]; [reflexivity|]; rewrite walk_list_cons.
        rewrite (walk_all_kept _ (fun x => (seen gvc (pos_here x), x))) by (intros x Hx; apply Hv; cbn; apply in_or_app; auto).
        rewrite IH by (intros x Hx; apply Hv; cbn; apply in_or_app; auto); reflexivity. }
      rewrite E; do 2 eexists; split; [reflexivity|]; cbn [preorder map fst tl]; f_equal.
      unfold cs; generalize 0 as i; clear; induction kids as [|k kids IH]; intros i; [reflexivity|].
      rewrite map_cons, mapi_cons; cbn [map flat_map]; rewrite !map_app, IH; f_equal.
      rewrite preorder_map, map_map; cbn [fst].
      rewrite <- (annotate_here (nt k) ([] ++ [i]) ([] ++ [n])) at 2; rewrite preorder_map, map_map; reflexivity.
    - cbn; unfold with_node, vis, uat_node, seen; cbn; rewrite En; cbn.
      do 2 eexists; split; [reflexivity|reflexivity]. }
  destruct Hw as (g & o & Ew & El).
  rewrite Ew in Hd; cbn [opt_list flat_map] in Hd; rewrite app_nil_r in Hd.
  intros k; destruct (Hd k) as (s' & Hc & _); exists s'; rewrite El in Hc; exact Hc.
Qed.
Print Assumptions C60_prune_depth_refuted.
Example C60_prune_depth_ex : exists s,
  calls (p_next (utree_chain (uinto_pipeline shy_gvc shy_tree) (u_prune_depth (u_map u_start true once) 0))) 8 (pt_new shy_tree [], true) 40 =
    Ok ([Some Unwound; Some (Got 2); Some Unwound; Some (Got 4); Some Unwound; Some (Got 3); Some (Got 5); None], s).
Proof. eexists; vm_compute; reflexivity. Qed.

(** ** When nothing panics these pipelines are those of C34 *)
Definition sure_res {A S S'} (phi : S -> S') (r : Res (option A * S)) : Res (option (result A) * S') :=
  match r with Ok (o, s) => Ok (option_map Got o, phi s) | Panic => Panic | UB => UB | OutOfFuel => OutOfFuel end.
Definition sure_as {A} (P : pipe A) (P' : pipe (result A)) (phi : p_state P -> p_state P') : Prop :=
  phi (p_init P) = p_init P' /\ (forall f s, p_next P' f (phi s) = sure_res phi (p_next P f s)) /\
  (forall s, p_path P' (phi s) = p_path P s) /\ (forall s, p_prune P' (phi s) = phi (p_prune P s)).

Lemma sure_loop {S S' A} (b : nat -> S -> Res (S + option A * S)) (b' : nat -> S' -> Res (S' + option (result A) * S')) (phi : S -> S') :
  (forall f s, b' f (phi s) = match b f s with
     | Ok (inl s') => Ok (inl (phi s')) | Ok (inr (o, s')) => Ok (inr (option_map Got o, phi s'))
     | Panic => Panic | UB => UB | OutOfFuel => OutOfFuel end) ->
  forall f s, loop b' f (phi s) = sure_res phi (loop b f s).
Proof.
  intros H f; induction f as [|f IH]; intros s; cbn; [reflexivity|].
  rewrite H; destruct (b f s) as [[s'|[o s']]| | |]; cbn; auto.
Qed.

Section Sure.
  Variable depth_of : list N -> Res N.
  Variable start : list N.
  Context {V : Type} (P : pipe V) (P' : pipe (result V)) (phi0 : p_state P -> p_state P').
  Hypothesis H0 : sure_as P P' phi0.

  Lemma sure_chain {A} (c : chain V A) : exists phi, sure_as (run_chain depth_of start P c) (urun_chain depth_of start P' (sure c)) phi.
  Proof.
    assert (Hprune : forall A G (I : pipe A) (I' : pipe (result A)) phi (f : G -> list N -> A -> G * bool) g st, sure_as I I' phi ->
      exists phi', sure_as (prune_from I f st g) (uprune_from I' (fun g p a => let '(g1, b) := f g p a in (g1, Some b)) st g) phi').
    { intros A' G I I' phi f g st (Hi & Hn & Hp & Hr).
      exists (fun s => mkPrune (phi (pr_inner s)) (pr_clos s) (pr_pruned s) (pr_path s)).
      split; [cbn; rewrite Hi; reflexivity|]; split; [|split; [reflexivity|intros s; cbn; rewrite Hr; reflexivity]].
      apply sure_loop; intros fu [s h pr pa]; unfold uprune_body, prune_body; cbn [pr_inner pr_clos pr_pruned pr_path].
      rewrite Hn; destruct (p_next I fu s) as [[[a|] s']| | |]; cbn [sure_res bindR option_map]; try reflexivity.
      rewrite Hp; destruct (prune_resize _ pr pa) as [[pr1 pa1]| | |]; cbn [bindR]; try reflexivity.
      destruct (f h (p_path I s') a) as [h1 [|]]; [|reflexivity].
      rewrite Hr; destruct (0 <? length pa1); [destruct (succ_at _ _)|]; reflexivity. }
    induction c as [|A B G c (phi & IH) g f|A G c (phi & IH) g f|A G c (phi & IH) g f|A c (phi & IH) lim]; cbn.
    - exists phi0; exact H0.
    - destruct IH as (Hi & Hn & Hp & Hr); exists (fun s => (phi (fst s), snd s)).
      split; [cbn; rewrite Hi; reflexivity|]; split; [|split; [intros s; apply Hp|intros s; cbn; rewrite Hr; reflexivity]].
      intros fu [s h]; cbn; unfold umap_next, map_next; cbn; rewrite Hn.
      destruct (p_next (run_chain depth_of start P c) fu s) as [[[a|] s']| | |]; cbn; try reflexivity.
      destruct (f h a); reflexivity.
    - destruct (Hprune _ _ _ _ phi (fun g _ a => f g a) g [] IH) as (phi' & H'); exists phi'; exact H'.
    - destruct (Hprune _ _ _ _ phi f g start IH) as (phi' & H'); exists phi'; exact H'.
    - destruct IH as (Hi & Hn & Hp & Hr); exists phi.
      split; [exact Hi|]; split; [|split; [exact Hp|exact Hr]].
      intros fu s; cbn; unfold uprune_depth_next, prune_depth_next; rewrite Hn.
      destruct (p_next (run_chain depth_of start P c) fu s) as [[[a|] s']| | |]; cbn; try reflexivity.
      rewrite Hp; destruct (depth_of _) as [d| | |]; cbn; try reflexivity; rewrite Hr; destruct (d =? lim)%N; reflexivity.
  Qed.

  Lemma sure_chain_binary {A} (c : chain V A) : exists phi, sure_as (run_chain_binary depth_of P c) (urun_chain_binary depth_of P' (sure c)) phi.
  Proof.
    assert (Hprune : forall A G (I : pipe A) (I' : pipe (result A)) phi (f : G -> list N -> A -> G * bool) g, sure_as I I' phi ->
      exists phi', sure_as (bprune I f g) (ubprune I' (fun g p a => let '(g1, b) := f g p a in (g1, Some b)) g) phi').
    { intros A' G I I' phi f g (Hi & Hn & Hp & Hr).
      exists (fun s => (phi (fst s), snd s)).
      split; [cbn; rewrite Hi; reflexivity|]; split; [|split; [intros s; apply Hp|intros s; cbn; rewrite Hr; reflexivity]].
      apply (sure_loop _ _ (fun s => (phi (fst s), snd s))); intros fu [s h]; unfold ubprune_body, bprune_body; cbn [fst snd].
      rewrite Hn; destruct (p_next I fu s) as [[[a|] s']| | |]; cbn [sure_res bindR option_map]; try reflexivity.
      rewrite Hp; destruct (f h (p_path I s') a) as [h1 [|]]; [rewrite Hr|]; reflexivity. }
    induction c as [|A B G c (phi & IH) g f|A G c (phi & IH) g f|A G c (phi & IH) g f|A c (phi & IH) lim]; cbn.
    - exists phi0; exact H0.
    - destruct IH as (Hi & Hn & Hp & Hr); exists (fun s => (phi (fst s), snd s)).
      split; [cbn; rewrite Hi; reflexivity|]; split; [|split; [intros s; apply Hp|intros s; cbn; rewrite Hr; reflexivity]].
      intros fu [s h]; cbn; unfold umap_next, map_next; cbn; rewrite Hn.
      destruct (p_next (run_chain_binary depth_of P c) fu s) as [[[a|] s']| | |]; cbn; try reflexivity.
      destruct (f h a); reflexivity.
    - destruct (Hprune _ _ _ _ phi (fun g _ a => f g a) g IH) as (phi' & H'); exists phi'; exact H'.
    - destruct (Hprune _ _ _ _ phi f g IH) as (phi' & H'); exists phi'; exact H'.
    - destruct IH as (Hi & Hn & Hp & Hr); exists phi.
      split; [exact Hi|]; split; [|split; [exact Hp|exact Hr]].
      intros fu s; cbn; unfold uprune_depth_next, prune_depth_next; rewrite Hn.
      destruct (p_next (run_chain_binary depth_of P c) fu s) as [[[a|] s']| | |]; cbn; try reflexivity.
      rewrite Hp; destruct (depth_of _) as [d| | |]; cbn; try reflexivity; rewrite Hr; destruct (d =? lim)%N; reflexivity.
  Qed.
End Sure.

Lemma sure_base {Nd V I C} (gv : Nd -> V * C) (into : C -> list I) body s0 :
  sure_as (base_pipe gv into body s0) (ubase_pipe (fun n => Some (gv n)) into body s0) (fun s => s).
Proof.
  split; [reflexivity|]; split; [|split; reflexivity].
  intros f s; cbn; unfold upt_next_with, pt_next_with.
  destruct (pt_root s) as [r|]; [destruct (gv r); reflexivity|].
  destruct (match pt_deck s with Some _ => _ | None => _ end) as [st pa].
  destruct (loop body f (st, pa)) as [[[m|] [st1 pa1]]| | |]; cbn; try reflexivity; destruct (gv m); reflexivity.
Qed.

(** The two objects go through the same states (up to [phi]), give the same items and have the same paths. *)
Theorem C60_no_panic : forall Nd V (gvc : Nd -> V * list Nd) A (c : chain V A) n,
  exists phi, sure_as (tree_chain (into_pipeline gvc n) c) (utree_chain (uinto_pipeline (fun n => Some (gvc n)) n) (sure c)) phi.
Proof. intros; eapply sure_chain, sure_base. Qed.
Print Assumptions C60_no_panic.
Theorem C60_no_panic_binary : forall Nd V (gvcb : Nd -> V * (option Nd * option Nd)) A (c : chain V A) n,
  exists phi, sure_as (btree_chain (into_pipeline_binary gvcb n) c) (ubtree_chain (uinto_pipeline_binary (fun n => Some (gvcb n)) n) (sure c)) phi.
Proof. intros; eapply sure_chain_binary, sure_base. Qed.
Print Assumptions C60_no_panic_binary.
