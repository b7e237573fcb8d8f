(** * ProofsOwnMore: postorder results in terms of the tree; preorder and breadth first release every container once. *)
From Coq Require Import Permutation.
From Verif Require Import Prelim PrelimFacts Spec SpecFacts SpecObs ModelNode ModelPre ModelPost ModelBfs ModelOwn.
From Verif Require Import NodeFacts ProofsPost ProofsPre ProofsBfs ProofsNat ProofsOwn FuelMono.

Lemma outs_split {A} (l : list A) k : map (nth_error l) (seq 0 k) = map Some (firstn k l) ++ repeat None (k - length l).
Proof.
  revert l; induction k as [|k IH]; intros l; [reflexivity|].
  cbn [seq map]; rewrite <- seq_shift, map_map; destruct l as [|a l]; cbn [nth_error firstn map app].
  - specialize (IH []); cbn [firstn map app length] in IH; rewrite firstn_nil in IH; cbn [map app] in IH.
    rewrite Nat.sub_0_r in *; cbn [length repeat Nat.sub]; f_equal; rewrite <- IH; apply map_ext; intros [|?]; reflexivity.
  - rewrite IH; reflexivity.
Qed.

Section PostEnd.
  Context {Nd V : Type}.
  Variable gvc : Nd -> V * list Nd.
  Variable owns : Nd -> bool.
  Variable nt : Nd -> tree Nd.
  Hypothesis Hnt : node_tree gvc nt.

  Lemma node_tree_n : node_tree (gvcn gvc) nt.
  Proof. intros n; rewrite Hnt at 1; reflexivity. Qed.

  Lemma hit_somes l j : forall prev, hit owns prev (map Some l ++ repeat None j) =
    match l with [] => false | _ => prev || existsb (owns_here owns) (removelast l) end.
  Proof.
    induction l as [|c l IH]; intros prev; cbn [map app].
    - induction j as [|j IHj]; [reflexivity|exact IHj].
    - cbn [hit]; rewrite IH; destruct l as [|d l]; [reflexivity|]; cbn [removelast existsb]; reflexivity.
  Qed.
  Lemma somes_read l j : existsb (fun x => match x with Some c => owns_here owns c | None => false end) (map Some l ++ repeat None j)
    = existsb (owns_here owns) l.
  Proof.
    rewrite existsb_app; replace (existsb _ (repeat None j)) with false.
    - rewrite orb_false_r; induction l as [|c l IH]; [reflexivity|]; cbn [map existsb]; rewrite IH; reflexivity.
    - induction j as [|j IH]; [reflexivity|exact IH].
  Qed.
  Lemma somes_seen (l : list (tree_context Nd (list Nd))) j : seen (map Some l ++ repeat None j) = flat_map c_ancestors l.
  Proof.
    unfold seen; rewrite flat_map_app; replace (flat_map _ (repeat None j)) with (@nil Nd).
    - rewrite app_nil_r; induction l as [|c l IH]; [reflexivity|]; cbn [map flat_map]; rewrite IH; reflexivity.
    - induction j as [|j IH]; [reflexivity|exact IH].
  Qed.

  Lemma here_at p : owns_here owns (context_at (gvcn gvc) p) = owns (pos_here p).
  Proof. unfold owns_here, context_at; cbn [c_ancestors]; rewrite map_app, rev_app_distr; reflexivity. Qed.
  Lemma anc_at p : c_ancestors (context_at (gvcn gvc) p) = pos_above p ++ [pos_here p].
  Proof. unfold context_at; cbn [c_ancestors]; rewrite map_ext with (g := fun x => x) by reflexivity; apply map_id. Qed.
  Lemma plain_at p : plain gvc (context_at (gvcn gvc) p) = no_children (context_at gvc p).
  Proof. unfold plain; rewrite anc_at; reflexivity. Qed.
  Lemma full_at p : full gvc (context_at (gvcn gvc) p) = context_at gvc p.
  Proof. unfold full; rewrite anc_at; reflexivity. Qed.

  Lemma removelast_map {A B} (f : A -> B) l : removelast (map f l) = map f (removelast l).
  Proof. induction l as [|a l IH]; [reflexivity|]; destruct l as [|b l]; [reflexivity|]; cbn [map removelast] in *; rewrite IH; reflexivity. Qed.
  Lemma existsb_map {A B} (f : A -> B) p l : existsb p (map f l) = existsb (fun a => p (f a)) l.
  Proof. induction l as [|a l IH]; [reflexivity|]; cbn; rewrite IH; reflexivity. Qed.
  Lemma existsb_ext' {A} (p q : A -> bool) l : (forall a, p a = q a) -> existsb p l = existsb q l.
  Proof. intros E; induction l as [|a l IH]; [reflexivity|]; cbn; rewrite IH, E; reflexivity. Qed.

  Variable n : Nd.
  Hypothesis Hs : small_nodes gvc (nt n).
  Let L := postorder (positions (nt n)).

  Lemma base_run k : exists o', calls (postc_next (gvcn gvc)) k (postc_new n []) ⇓
    Ok (map Some (map (context_at (gvcn gvc)) (firstn k L)) ++ repeat None (k - length L), o').
  Proof.
    destruct (postc_yields (gvcn gvc) nt [] n node_tree_n Hs k) as (o' & H); exists o'.
    rewrite outs_split, map_length, firstn_map in H; exact H.
  Qed.

  Lemma outs_map {B} (g : pos Nd -> B) k : map Some (map g (firstn k L)) ++ repeat None (k - length L) = map (option_map g) (map (nth_error L) (seq 0 k)).
  Proof. rewrite outs_split, map_app, !map_map; f_equal; induction (k - length L) as [|j IH]; [reflexivity|cbn; rewrite <- IH; reflexivity]. Qed.

  Lemma map_outs {A B} (g : A -> B) l j : map (option_map g) (map Some l ++ repeat None j) = map Some (map g l) ++ repeat None j.
  Proof. rewrite map_app, !map_map; f_equal; induction j as [|j IH]; [reflexivity|cbn; rewrite <- IH; reflexivity]. Qed.

  Let ctxs k := map Some (map (context_at (gvcn gvc)) (firstn k L)) ++ repeat None (k - length L).

  Lemma ctxs_hit k : hit owns false (ctxs k) = existsb (fun p => owns (pos_here p)) (removelast (firstn k L)).
  Proof.
    unfold ctxs; rewrite hit_somes; destruct (firstn k L) as [|p l] eqn:E; [reflexivity|].
    replace (match map _ (p :: l) with [] => false | _ => _ end)
      with (existsb (owns_here owns) (removelast (map (context_at (gvcn gvc)) (p :: l)))) by reflexivity.
    rewrite removelast_map, existsb_map; apply existsb_ext'; intros a; apply here_at.
  Qed.
  Lemma ctxs_read k : existsb (fun x => match x with Some c => owns_here owns c | None => false end) (ctxs k)
    = existsb (fun p => owns (pos_here p)) (firstn k L).
  Proof. unfold ctxs; rewrite somes_read, existsb_map; apply existsb_ext'; intros a; apply here_at. Qed.
  Lemma ctxs_seen k : seen (ctxs k) = flat_map (fun p => pos_above p ++ [pos_here p]) (firstn k L).
  Proof.
    unfold ctxs; rewrite somes_seen; induction (firstn k L) as [|p l IH]; [reflexivity|].
    cbn [map flat_map]; rewrite IH, anc_at; reflexivity.
  Qed.
  Lemma ctxs_plain k : map (option_map (plain gvc)) (ctxs k) = map (option_map (fun p => no_children (context_at gvc p))) (map (nth_error L) (seq 0 k)).
  Proof.
    unfold ctxs; rewrite map_outs, <- outs_map; do 2 f_equal; rewrite map_map; apply map_ext; intros p; apply plain_at.
  Qed.
  Lemma ctxs_full k : map (option_map (full gvc)) (ctxs k) = map (nth_error (map (context_at gvc) L)) (seq 0 k).
  Proof.
    unfold ctxs; rewrite map_outs, outs_split, map_length, firstn_map; do 2 f_equal; rewrite map_map; apply map_ext; intros p; apply full_at.
  Qed.

  Lemma post_calls k :
    if existsb (fun p => owns (pos_here p)) (removelast (firstn k L))
    then calls (opost_next gvc owns) k (opost_new n []) ⇓ UB
    else exists s', calls (opost_next gvc owns) k (opost_new n []) ⇓
           Ok (map (option_map (fun p => no_children (context_at gvc p))) (map (nth_error L) (seq 0 k)), s').
  Proof.
    destruct (base_run k) as (o' & F & HF); specialize (HF F (le_n F)); fold (ctxs k) in HF.
    pose proof (calls_sim_next gvc owns F k _ _ _ _ (Rs_new gvc owns n []) HF) as H; cbn [opost_new op_children owned_opt] in H.
    rewrite ctxs_hit in H; destruct (existsb _ _).
    - eapply more_conv; [apply more_calls, more_opost_next|exact H|discriminate].
    - destruct H as (s' & E & _); exists s'; rewrite <- ctxs_plain.
      eapply more_conv; [apply more_calls, more_opost_next|exact E|discriminate].
  Qed.

  Lemma post_reading k :
    if existsb (fun p => owns (pos_here p)) (firstn k L)
    then calls (opost_next_reading gvc owns) k (opost_new n []) ⇓ UB
    else exists s', calls (opost_next_reading gvc owns) k (opost_new n []) ⇓ Ok (map (nth_error (map (context_at gvc) L)) (seq 0 k), s').
  Proof.
    destruct (base_run k) as (o' & F & HF); specialize (HF F (le_n F)); fold (ctxs k) in HF.
    pose proof (calls_sim_reading gvc owns F k _ _ _ _ (Rs_new gvc owns n []) eq_refl HF) as H.
    rewrite ctxs_read in H; destruct (existsb _ _).
    - eapply more_conv; [apply more_calls, more_opost_reading|exact H|discriminate].
    - destruct H as (s' & E & _); exists s'; rewrite <- ctxs_full.
      eapply more_conv; [apply more_calls, more_opost_reading|exact E|discriminate].
  Qed.

  Lemma removelast_in {A} (l : list A) x : In x (removelast l) -> In x l.
  Proof. induction l as [|a [|b l] IH]; [tauto|cbn; tauto|]; cbn [removelast]; intros [<-|Hi]; [left; reflexivity|right; apply IH, Hi]. Qed.

  Lemma post_drop k :
    if existsb owns (flat_map (fun p => pos_above p ++ [pos_here p]) (firstn k L))
    then use_and_drop (opost_next gvc owns) opost_drop k (opost_new n []) ⇓ UB
    else exists h, use_and_drop (opost_next gvc owns) opost_drop k (opost_new n []) ⇓
           Ok (map (option_map (fun p => no_children (context_at gvc p))) (map (nth_error L) (seq 0 k)), h).
  Proof.
    destruct (base_run k) as (o' & F & HF); specialize (HF F (le_n F)); fold (ctxs k) in HF.
    pose proof (calls_sim_next gvc owns F k _ _ _ _ (Rs_new gvc owns n []) HF) as H; cbn [opost_new op_children owned_opt] in H.
    rewrite ctxs_hit in H; destruct (existsb _ (removelast _)) eqn:E1.
    - replace (existsb owns _) with true.
      + apply more_conv with F; [apply more_use_and_drop, more_opost_next|unfold use_and_drop; rewrite H; reflexivity|discriminate].
      + symmetry; apply existsb_exists in E1; destruct E1 as (p & Hi & Hp); apply removelast_in in Hi.
        apply existsb_exists; exists (pos_here p); split; [|exact Hp]; apply in_flat_map; exists p; split; [exact Hi|].
        apply in_or_app; right; left; reflexivity.
    - destruct H as (s' & E & HR & Hh); cbn in Hh; rewrite ctxs_seen in Hh; rewrite <- ctxs_plain.
      pose proof (drop_sim gvc owns s' o' HR) as Hd; rewrite Hh in Hd.
      destruct (existsb owns _).
      + apply more_conv with F; [apply more_use_and_drop, more_opost_next|unfold use_and_drop; rewrite E; cbn [bindR]; rewrite Hd; reflexivity|discriminate].
      + eexists; apply more_conv with F; [apply more_use_and_drop, more_opost_next|unfold use_and_drop; rewrite E; cbn [bindR]; rewrite Hd; reflexivity|discriminate].
  Qed.
End PostEnd.

(** ** Preorder and breadth first: every container is released once *)
Section Linear.
  Context {Nd V : Type}.
  Variable gvc : Nd -> V * list Nd.
  Variable owns : Nd -> bool.

  (** The blocks handed out are the released ones and those of the containers at hand. *)
  Definition acct (h : heap) (l : list (cont Nd)) : Prop := Permutation (h_freed h ++ mems l) (seq 0 (h_next h)).

  Lemma acct_perm h l l' : Permutation l l' -> acct h l -> acct h l'.
  Proof. unfold acct, mems; intros HP H; rewrite <- H; apply Permutation_app_head, Permutation_flat_map; symmetry; exact HP. Qed.
  Lemma acct_mem h c l l' : ct_mem c = ct_mem l -> acct h (c :: l') -> acct h (l :: l').
  Proof. unfold acct, mems; cbn; intros ->; auto. Qed.
  Lemma acct_fresh h c l : acct h (c :: l) -> forall m, ct_mem c = Some m -> is_freed h m = false.
  Proof.
    intros H m E; apply is_freed_not; intros Hi; unfold acct in H; cbn in H; rewrite E in H; cbn in H.
    assert (Hn : NoDup (h_freed h ++ m :: mems l)) by (apply Permutation_NoDup with (seq 0 (h_next h)); [symmetry; exact H|apply seq_NoDup]).
    apply NoDup_remove_2 in Hn; apply Hn, in_or_app; left; exact Hi.
  Qed.
  Lemma acct_read h c l : acct h (c :: l) -> read h c = Ok (ct_items c).
  Proof. intros H; unfold read; destruct (ct_mem c) as [m|] eqn:E; [|reflexivity]; rewrite (acct_fresh h c l H m E); reflexivity. Qed.
  Lemma acct_release h c l : acct h (c :: l) -> exists h', release h c = Ok h' /\ acct h' l /\ h_next h' = h_next h.
  Proof.
    intros H; unfold release; destruct (ct_mem c) as [m|] eqn:E.
    - rewrite (acct_fresh h c l H m E); eexists; split; [reflexivity|]; split; [|reflexivity].
      unfold acct in *; cbn in *; rewrite E in H; cbn in H.
      rewrite <- H; apply Permutation_middle.
    - eexists; split; [reflexivity|]; split; [|reflexivity]; unfold acct in *; cbn in H; rewrite E in H; exact H.
  Qed.
  Lemma acct_release_all l : forall h r, acct h (l ++ r) -> exists h', release_all h l = Ok h' /\ acct h' r /\ h_next h' = h_next h.
  Proof.
    induction l as [|c l IH]; intros h r H; [exists h; split; [reflexivity|split; [exact H|reflexivity]]|].
    destruct (acct_release h c (l ++ r) H) as (h1 & E & H1 & En); cbn [release_all]; rewrite E; cbn [bindR].
    destruct (IH h1 r H1) as (h2 & E2 & H2 & En2); exists h2; split; [exact E2|]; split; [exact H2|congruence].
  Qed.
  Lemma acct_take h n l : acct h l -> exists h' c, take_node gvc owns h n = (h', nval gvc n, c) /\ ct_items c = nkids gvc n /\ acct h' (c :: l) /\
    h_next h' = h_next h + (if owns n then 1 else 0).
  Proof.
    intros H; unfold take_node; rewrite (gv_eq gvc n); destruct (owns n).
    - do 2 eexists; split; [reflexivity|]; split; [reflexivity|]; split; [|cbn; lia]; unfold acct in *; cbn [h_freed h_next].
      rewrite seq_S; cbn; rewrite <- H; rewrite <- Permutation_middle; apply Permutation_cons_append.
    - do 2 eexists; split; [reflexivity|]; split; [reflexivity|]; split; [exact H|lia].
  Qed.
  Definition ol (o : option (cont Nd)) : list (cont Nd) := match o with Some c => [c] | None => [] end.

  Local Notation value := (nval gvc).
  (** Blocks handed out for a yielded context. *)
  Definition cost (x : option (tree_context Nd (list Nd))) : nat :=
    match x with Some c => if owns_here owns c then 1 else 0 | None => 0 end.
  Definition costs (xs : list (option (tree_context Nd (list Nd)))) : nat := list_sum (map cost xs).

  (** *** Preorder *)
  Lemma pre_loop f : forall h stack path anc r os op oa, acct h stack ->
    loop (prec_body (V:=Nd)) f (map (@ct_items Nd) stack, path, anc) = Ok (r, (os, op, oa)) ->
    exists h' stack', loop opre_body f (h, stack, path, map value anc) = Ok (r, (h', stack', op, map value oa)) /\
      map (@ct_items Nd) stack' = os /\ acct h' stack' /\ h_next h' = h_next h.
  Proof.
    induction f as [|f IH]; intros h stack path anc r os op oa HA; [discriminate|].
    cbn [loop]; unfold prec_body at 1, opre_body at 1; destruct stack as [|top rest]; cbn [map].
    - intros [= <- <- <- <-]; exists h, []; auto.
    - unfold iter_next; rewrite (acct_read h top rest HA); cbn [bindR].
      destruct (ct_items top) as [|n items] eqn:Ei; cbn [bindR].
      + intros Hl; destruct (acct_release h top rest HA) as (h1 & E & HA1 & En); rewrite E; cbn [bindR].
        replace (tl (map value anc)) with (map value (tl anc)) by (destruct anc; reflexivity).
        destruct (IH h1 rest (tl path) (tl anc) r os op oa HA1 Hl) as (h' & stack' & H1 & H2 & H3 & H4).
        exists h', stack'; repeat split; auto; congruence.
      + unfold incr_last; destruct path as [|p path']; [discriminate|]; cbn [bindR]; intros [= <- <- <- <-].
        do 2 eexists; split; [reflexivity|]; split; [reflexivity|]; split; [|reflexivity].
        eapply acct_mem; [|exact HA]; reflexivity.
  Qed.

  Record Rq (s : opre Nd V) (o : prec Nd Nd Nd (list Nd)) : Prop := mkRq {
    rq_root : oq_root s = pc_root o;
    rq_stack : map (@ct_items Nd) (oq_stack s) = pc_stack o;
    rq_path : oq_path s = pc_path o;
    rq_anc : oq_anc s = map value (pc_anc o);
    rq_children : option_map (@ct_items Nd) (oq_children s) = pc_children o;
    rq_heap : acct (oq_heap s) (oq_stack s ++ ol (oq_children s));
    rq_first : pc_root o <> None -> oq_children s = None
  }.

  Ltac qq := cbn [oq_heap oq_root oq_stack oq_path oq_anc oq_children pc_root pc_stack pc_path pc_anc pc_children ol] in *.

  Lemma pre_advance f s o o' : Rq s o -> prec_advance (gvcn gvc) f o = Ok o' ->
    exists s', opre_advance gvc owns f s = Ok s' /\ Rq s' o' /\ h_next (oq_heap s') = h_next (oq_heap s) + cost (prec_get o').
  Proof.
    destruct s as [h root stack path anc ch], o as [oroot ostack opath oanc och].
    intros [H1 H2 H3 H4 H5 H6 H7]; qq; subst root ostack path anc och.
    unfold prec_advance, prec_advance_with, opre_advance; qq.
    destruct oroot as [root|].
    - rewrite H7 in * by discriminate; unfold gvcn; intros [= <-]; cbn [ol] in H6; rewrite app_nil_r in H6.
      destruct (acct_take h root stack H6) as (h' & c & E & Ei & HA & En); rewrite E; cbn [release_opt bindR].
      eexists; split; [reflexivity|]; split; [constructor; qq; try reflexivity|].
      + cbn; rewrite Ei; reflexivity.
      + eapply acct_perm; [|exact HA]; apply Permutation_cons_append.
      + congruence.
      + qq; rewrite En; unfold prec_get, cost, owns_here; cbn [pc_anc c_ancestors]; rewrite rev_involutive; reflexivity.
    - destruct oanc as [|a oanc]; [intros [= <-]; eexists; split; [reflexivity|]; split; [constructor; auto|cbn; lia]|].
      cbn [map].
      assert (Hgo : forall st path anc, acct h st ->
        ('(next, (stack, path, anc)) <- loop (prec_body (V:=Nd)) f (map (@ct_items Nd) st, path, anc);;
         match next with Some node => let '(value, children) := gvcn gvc node in Ok (mkPrec None stack path (value :: anc) (Some children))
         | None => Ok (mkPrec None stack path [] None) end) = Ok o' ->
        exists s', ('(next, (h0, stack, path, anc)) <- loop opre_body f (h, st, path, map value anc);;
         match next with Some node => let '(h1, value, children) := take_node gvc owns h0 node in Ok (mkOpre h1 None stack path (value :: anc) (Some children))
         | None => Ok (mkOpre h0 None stack path [] None) end) = Ok s' /\ Rq s' o' /\ h_next (oq_heap s') = h_next h + cost (prec_get o')).
      { intros st path anc HA; destruct (loop prec_body f _) as [[r [[os op] oa]]| | |] eqn:El; try discriminate; cbn [bindR].
        destruct (pre_loop f h st path anc r os op oa HA El) as (h' & st' & E & Es & HA' & En); rewrite E; cbn [bindR].
        destruct r as [node|].
        - unfold gvcn; intros [= <-].
          destruct (acct_take h' node st' HA') as (h2 & c & E2 & Ei & HA2 & En2); rewrite E2.
          eexists; split; [reflexivity|]; split; [constructor; qq; try reflexivity; try assumption|].
          + cbn; rewrite Ei; reflexivity.
          + eapply acct_perm; [|exact HA2]; apply Permutation_cons_append.
          + congruence.
          + qq; rewrite En2, En; unfold prec_get, cost, owns_here; cbn [pc_anc c_ancestors]; rewrite rev_involutive; reflexivity.
        - intros [= <-]; eexists; split; [reflexivity|]; split; [constructor; qq; try reflexivity; try assumption|].
          + rewrite app_nil_r; exact HA'.
          + qq; cbn; lia. }
      destruct ch as [c|]; cbn [option_map ol] in *.
      + apply (Hgo (c :: stack) _ (a :: oanc)); eapply acct_perm; [|exact H6]; symmetry; apply Permutation_cons_append.
      + rewrite app_nil_r in H6; apply (Hgo stack _ oanc H6).
  Qed.

  Lemma prec_some {U} (g : Nd -> U * list Nd) f o o' : prec_advance g f o = Ok o' -> pc_anc o' <> [] -> pc_children o' <> None.
  Proof.
    unfold prec_advance, prec_advance_with; destruct (pc_root o); [destruct (g _); intros [= <-]; cbn; congruence|].
    destruct (pc_anc o) eqn:Ea; [intros [= <-]; congruence|].
    destruct (match pc_children o with Some _ => _ | None => _ end) as [[? ?] ?].
    destruct (loop _ _ _) as [[[nd|] [[? ?] ?]]| | |]; try discriminate; cbn [bindR]; [destruct (g nd)|]; intros [= <-]; cbn; congruence.
  Qed.

  Lemma pre_next f s o x o' : Rq s o -> prec_next (gvcn gvc) f o = Ok (x, o') ->
    exists s', opre_next_reading gvc owns f s = Ok (option_map (full gvc) x, s') /\ Rq s' o' /\ h_next (oq_heap s') = h_next (oq_heap s) + cost x.
  Proof.
    intros HR; unfold prec_next, opre_next_reading; destruct (prec_advance (gvcn gvc) f o) as [o1| | |] eqn:E; try discriminate; cbn [bindR].
    intros [= <- <-]; destruct (pre_advance f s o o1 HR E) as (s' & Es & HR' & En); rewrite Es; cbn [bindR].
    exists s'; unfold prec_get in *; rewrite (rq_anc _ _ HR'); pose proof (prec_some (gvcn gvc) f o o1 E) as Hc.
    destruct (pc_anc o1) as [|a l] eqn:Ea; [split; [reflexivity|split; [exact HR'|exact En]]|].
    pose proof (rq_children _ _ HR') as Hch; destruct (oq_children s') as [c|] eqn:Eo; [|exfalso; apply Hc; [discriminate|cbn in Hch; congruence]].
    cbn [unwrap bindR map]; pose proof (rq_heap _ _ HR') as HA; rewrite Eo in HA; cbn [ol] in HA.
    rewrite (acct_read (oq_heap s') c (oq_stack s')) by (eapply acct_perm; [|exact HA]; symmetry; apply Permutation_cons_append).
    cbn [bindR]; rewrite (rq_path _ _ HR'), <- Hch; split; [|split; [exact HR'|]].
    - unfold full; cbn [option_map c_path c_ancestors c_children]; rewrite map_rev; reflexivity.
    - rewrite En, <- Hch; reflexivity.
  Qed.

  Lemma acct_drop_opt h o : acct h (ol o) -> exists h', release_opt h o = Ok h' /\ Permutation (h_freed h') (seq 0 (h_next h')) /\ h_next h' = h_next h.
  Proof.
    intros H; assert (exists h', release_opt h o = Ok h' /\ acct h' [] /\ h_next h' = h_next h) as (h' & E & H' & En).
    { destruct o as [c|]; [apply acct_release, H|exists h; split; [reflexivity|split; [exact H|reflexivity]]]. }
    exists h'; split; [exact E|]; split; [|exact En]; unfold acct in H'; cbn in H'; rewrite app_nil_r in H'; exact H'.
  Qed.

  Lemma pre_drop s o : Rq s o -> exists h, opre_drop s = Ok h /\ Permutation (h_freed h) (seq 0 (h_next h)) /\ h_next h = h_next (oq_heap s).
  Proof.
    intros HR; unfold opre_drop.
    destruct (acct_release_all (rev (oq_stack s)) (oq_heap s) (ol (oq_children s))) as (h1 & E & H1 & En).
    { eapply acct_perm; [|exact (rq_heap _ _ HR)]; apply Permutation_app_tail, Permutation_rev. }
    rewrite E; cbn [bindR]; rewrite <- En; apply acct_drop_opt, H1.
  Qed.

  (** *** Breadth first *)
  Record Rb (s : obfs Nd V) (o : bfsc Nd Nd (list Nd)) : Prop := mkRb {
    rb_root : ob_is_root s = bc_is_root o;
    rb_cache : ob_cache s = cnm value (bc_cache o);
    rb_stack : ob_stack s = map (cnm value) (bc_stack o);
    rb_queue : map (@ct_items Nd) (ob_queue s) = bc_queue o;
    rb_path : ob_path s = bc_path o;
    rb_anc : ob_anc s = map value (bc_anc o);
    rb_children : option_map (@ct_items Nd) (ob_children s) = bc_children o;
    rb_counter : ob_counter s = bc_counter o;
    rb_heap : acct (ob_heap s) (ob_queue s ++ ol (ob_children s))
  }.
  Ltac bb := cbn [ob_heap ob_is_root ob_cache ob_stack ob_queue ob_path ob_anc ob_children ob_counter
                  bc_is_root bc_cache bc_stack bc_queue bc_path bc_anc bc_children bc_counter ol map option_map] in *.

  Lemma bfs_loop f : forall s o o', Rb s o -> bc_children o = None -> loop (bfsc_body (gvcn gvc)) f o = Ok o' ->
    exists s', loop (obfs_body gvc owns) f s = Ok s' /\ Rb s' o' /\ (bc_anc o' <> [] -> bc_children o' <> None) /\
      h_next (ob_heap s') = h_next (ob_heap s) + cost (bfsc_get o').
  Proof.
    induction f as [|f IH]; intros s o o' HR Hn; [discriminate|].
    destruct s as [h root cache stack queue path anc ch cnt], o as [oroot ocache ostack oqueue opath oanc och ocnt].
    destruct HR as [H1 H2 H3 H4 H5 H6 H7 H8 H9]; bb; subst root cache stack oqueue path anc och cnt.
    cbn [loop]; unfold bfsc_body at 1, obfs_body at 1; bb.
    destruct ch as [c0|]; [discriminate|]; bb.
    destruct (cmaybe_pop (oanc, opath, ocache, ostack)) as [[[[anc path] cache] stack]| | |] eqn:Ep; try discriminate; cbn [bindR].
    apply (maybe_pop_nm value) in Ep; cbn [pnm] in Ep; rewrite Ep; cbn [bindR].
    destruct queue as [|front queue]; [discriminate|]; bb.
    rewrite app_nil_r in H9; unfold iter_next; rewrite (acct_read h front queue H9); cbn [bindR].
    destruct (ct_items front) as [|nd iter] eqn:Ei; cbn [bindR].
    - destruct (cto_next_parent f (anc, path, cache, stack)) as [[[[anc1 path1] cache1] stack1]| | |] eqn:Et; try discriminate; cbn [bindR].
      apply (to_next_nm value) in Et; cbn [pnm] in Et; rewrite Et; cbn [bindR].
      destruct (acct_release h front queue H9) as (h1 & E & HA & En); rewrite E; cbn [bindR].
      destruct queue as [|q queue]; cbn [map].
      + intros [= <-]; eexists; split; [reflexivity|]; split; [|split; [bb; congruence|bb; cbn; lia]].
        constructor; bb; try reflexivity; exact HA.
      + intros Hl; rewrite <- En; eapply (IH (mkObfs h1 oroot _ _ (q :: queue) path1 _ None 0%N)); [| |exact Hl]; [|reflexivity]; constructor; bb; try reflexivity.
        rewrite app_nil_r; exact HA.
    - destruct (checked_succ ocnt) as [cnt'| | |]; try discriminate; cbn [bindR]; unfold gvcn; intros [= <-].
      destruct (acct_take h nd (mkCont (ct_mem front) iter :: queue)) as (h1 & c & E & Ec & HA & En);
        [eapply acct_mem; [|exact H9]; reflexivity|].
      rewrite E; cbn [release_opt bindR]; eexists; split; [reflexivity|]; split; [|split; [bb; congruence|]].
      + constructor; bb; try reflexivity; [cbn; rewrite Ec; reflexivity|].
        eapply acct_perm; [|exact HA]; rewrite <- Permutation_cons_append; apply Permutation_refl.
      + bb; rewrite En; unfold bfsc_get, cost, owns_here; cbn [bc_anc c_ancestors]; rewrite rev_involutive; reflexivity.
  Qed.

  Lemma bfs_next f s o x o' : Rb s o -> (bc_anc o <> [] -> bc_children o <> None) -> bfsc_next (gvcn gvc) f o = Ok (x, o') ->
    exists s', obfs_next_reading gvc owns f s = Ok (option_map (full gvc) x, s') /\ Rb s' o' /\ (bc_anc o' <> [] -> bc_children o' <> None) /\
      bc_is_root o' = false /\
      h_next (ob_heap s') = h_next (ob_heap s) + (if bc_is_root o then 0 else cost x).
  Proof.
    intros HR Hc; unfold bfsc_next, obfs_next_reading; destruct (bfsc_advance (gvcn gvc) f o) as [o1| | |] eqn:E; try discriminate; cbn [bindR].
    intros [= <- <-].
    assert (exists s', obfs_advance gvc owns f s = Ok s' /\ Rb s' o1 /\ (bc_anc o1 <> [] -> bc_children o1 <> None) /\
      h_next (ob_heap s') = h_next (ob_heap s) + (if bc_is_root o then 0 else cost (bfsc_get o1))) as (s' & Es & HR' & Hc' & En).
    { destruct s as [h root cache stack queue path anc ch cnt], o as [oroot ocache ostack oqueue opath oanc och ocnt].
      unfold bfsc_advance, bfsc_advance_with in E; unfold obfs_advance.
      destruct HR as [H1 H2 H3 H4 H5 H6 H7 H8 H9]; bb; subst root cache stack oqueue path anc och cnt.
      destruct oroot; [injection E as <-; eexists; split; [reflexivity|]; split; [constructor; bb; auto|split; [bb; exact Hc|bb; lia]]|].
      destruct oanc as [|a oanc]; [injection E as <-; eexists; split; [reflexivity|]; split; [constructor; bb; auto|split; [bb; congruence|cbn; lia]]|].
      destruct ch as [c|]; cbn [option_map unwrap bindR map] in *; [|discriminate].
      eapply (bfs_loop f (mkObfs h false _ _ (queue ++ [c]) opath (value a :: map value oanc) None ocnt)); [| |exact E]; [|reflexivity].
      constructor; bb; try reflexivity.
      - rewrite map_app; reflexivity.
      - rewrite app_nil_r; exact H9. }
    assert (Hroot : bc_is_root o1 = false).
    { revert E; unfold bfsc_advance, bfsc_advance_with.
      destruct (bc_is_root o) eqn:Er; [intros [= <-]; reflexivity|].
      destruct (bc_anc o); [intros [= <-]; exact Er|].
      destruct (unwrap (bc_children o)); cbn [bindR]; try discriminate.
      clear; assert (Hb : forall f o o', loop (bfsc_body (gvcn gvc)) f o = Ok o' -> bc_is_root o = false -> bc_is_root o' = false).
      { clear; induction f as [|f IH]; intros o o'; [discriminate|]; cbn [loop]; unfold bfsc_body at 1.
        destruct (cmaybe_pop _) as [[[[? ?] ?] ?]| | |]; try discriminate; cbn [bindR].
        destruct (bc_queue o) as [|[|nd iter] queue]; try discriminate; cbn [bindR].
        - destruct (cto_next_parent f _) as [[[[? ?] ?] ?]| | |]; try discriminate; cbn [bindR].
          destruct queue; [intros [= <-] Hr; exact Hr|]; intros Hl Hr; apply (IH _ _ Hl); exact Hr.
        - destruct (checked_succ _); try discriminate; cbn [bindR]; unfold gvcn; intros [= <-] Hr; exact Hr. }
      intros Hl; apply (Hb _ _ _ Hl); reflexivity. }
    rewrite Es; cbn [bindR]; exists s'; unfold bfsc_get in *; rewrite (rb_anc _ _ HR').
    destruct (bc_anc o1) as [|a l] eqn:Ea; [split; [reflexivity|split; [exact HR'|split; [congruence|split; [exact Hroot|exact En]]]]|].
    pose proof (rb_children _ _ HR') as Hch; destruct (ob_children s') as [c|] eqn:Eo; [|exfalso; apply Hc'; [discriminate|cbn in Hch; congruence]].
    cbn [unwrap bindR map]; pose proof (rb_heap _ _ HR') as HA; rewrite Eo in HA; cbn [ol] in HA.
    rewrite (acct_read (ob_heap s') c (ob_queue s')) by (eapply acct_perm; [|exact HA]; symmetry; apply Permutation_cons_append).
    cbn [bindR]; rewrite (rb_path _ _ HR'), <- Hch; split; [|split; [exact HR'|split; [cbn; congruence|split; [exact Hroot|]]]].
    - unfold full; cbn [option_map c_path c_ancestors c_children]; rewrite map_rev; reflexivity.
    - rewrite En, <- Hch; reflexivity.
  Qed.

  Lemma bfs_drop s o : Rb s o -> exists h, obfs_drop s = Ok h /\ Permutation (h_freed h) (seq 0 (h_next h)) /\ h_next h = h_next (ob_heap s).
  Proof.
    intros HR; unfold obfs_drop.
    destruct (acct_release_all (ob_queue s) (ob_heap s) (ol (ob_children s)) (rb_heap _ _ HR)) as (h1 & E & H1 & En).
    rewrite E; cbn [bindR]; rewrite <- En; apply acct_drop_opt, H1.
  Qed.

  Lemma acct0 : acct heap0 [].
  Proof. apply Permutation_refl. Qed.

  Variable nt : Nd -> tree Nd.
  Hypothesis Hnt : node_tree gvc nt.
  Variable n : Nd.
  Hypothesis Hs : small_nodes gvc (nt n).

  Lemma full_outs (l : list (pos Nd)) k : map (option_map (full gvc)) (map (nth_error (map (context_at (gvcn gvc)) l)) (seq 0 k)) =
    map (nth_error (map (context_at gvc) l)) (seq 0 k).
  Proof.
    rewrite map_map; apply map_ext; intros i; rewrite !nth_error_map; destruct (nth_error l i); cbn; [rewrite full_at|]; reflexivity.
  Qed.
  Lemma costs_outs (l : list (pos Nd)) k : costs (map (nth_error (map (context_at (gvcn gvc)) l)) (seq 0 k)) =
    length (filter owns (map pos_here (firstn k l))).
  Proof.
    rewrite outs_split, firstn_map; unfold costs; rewrite map_app, list_sum_app.
    replace (list_sum (map cost (repeat None _))) with 0 by (induction (k - _) as [|j IH]; [reflexivity|exact IH]).
    rewrite Nat.add_0_r; induction (firstn k l) as [|p ps IH]; [reflexivity|].
    cbn [map list_sum fold_right filter cost] in *; unfold list_sum in IH; rewrite IH, here_at; destruct (owns (pos_here p)); reflexivity.
  Qed.

  Lemma pre_all k : exists h, use_and_drop (opre_next_reading gvc owns) opre_drop k (opre_new n []) ⇓
      Ok (map (nth_error (map (context_at gvc) (preorder (positions (nt n))))) (seq 0 k), h)
    /\ h_next h = length (filter owns (map pos_here (firstn k (preorder (positions (nt n))))))
    /\ Permutation (h_freed h) (seq 0 (h_next h)).
  Proof.
    destruct (prec_yields (gvcn gvc) nt [] n (node_tree_n gvc nt Hnt) Hs k) as (o' & F & HF); specialize (HF F (le_n F)).
    assert (forall s o xs, Rq s o -> calls (prec_next (gvcn gvc)) k o F = Ok (xs, o') ->
      exists s', calls (opre_next_reading gvc owns) k s F = Ok (map (option_map (full gvc)) xs, s') /\ Rq s' o' /\
        h_next (oq_heap s') = h_next (oq_heap s) + costs xs) as Hsim.
    { clear HF; induction k as [|j IH]; intros s o xs HR; cbn [calls]; [intros [= <- <-]; exists s; split; [reflexivity|]; split; [exact HR|cbn; lia]|].
      destruct (prec_next (gvcn gvc) F o) as [[x o1]| | |] eqn:E1; try discriminate; cbn [bindR].
      destruct (calls _ j o1 F) as [[ys o2]| | |] eqn:E2; try discriminate; cbn [bindR]; intros [= <- <-].
      destruct (pre_next F s o x o1 HR E1) as (s1 & Es & HR1 & En1); rewrite Es; cbn [bindR].
      destruct (IH s1 o1 ys HR1 E2) as (s2 & Es2 & HR2 & En2); rewrite Es2; cbn [bindR]; exists s2; split; [reflexivity|]; split; [exact HR2|].
      rewrite En2, En1; unfold costs, list_sum; cbn [map fold_right]; lia. }
    assert (HR0 : Rq (opre_new n []) (prec_new n [])) by (constructor; try reflexivity; apply acct0).
    destruct (Hsim _ _ _ HR0 HF) as (s' & E & HR & En).
    destruct (pre_drop s' o' HR) as (h & Ed & HP & En'); exists h; split; [|split; [|exact HP]].
    - rewrite <- full_outs; apply more_conv with F; [apply more_use_and_drop, more_opre_reading|unfold use_and_drop; rewrite E; cbn [bindR]; rewrite Ed; reflexivity|discriminate].
    - rewrite En', En, costs_outs; reflexivity.
  Qed.

  Lemma bfs_all k : exists h, use_and_drop (obfs_next_reading gvc owns) obfs_drop k (obfs_new gvc owns n []) ⇓
      Ok (map (nth_error (map (context_at gvc) (bfs (positions (nt n))))) (seq 0 k), h)
    /\ h_next h = length (filter owns (map pos_here (firstn (max 1 k) (bfs (positions (nt n))))))
    /\ Permutation (h_freed h) (seq 0 (h_next h)).
  Proof.
    destruct (bfsc_yields (gvcn gvc) nt [] n (node_tree_n gvc nt Hnt) Hs k) as (o' & F & HF); specialize (HF F (le_n F)).
    assert (forall s o xs, Rb s o -> (bc_anc o <> [] -> bc_children o <> None) -> calls (bfsc_next (gvcn gvc)) k o F = Ok (xs, o') ->
      exists s', calls (obfs_next_reading gvc owns) k s F = Ok (map (option_map (full gvc)) xs, s') /\ Rb s' o' /\
        h_next (ob_heap s') = h_next (ob_heap s) + costs (if bc_is_root o then tl xs else xs)) as Hsim.
    { clear HF; induction k as [|j IH]; intros s o xs HR Hc; cbn [calls].
      { intros [= <- <-]; exists s; split; [reflexivity|]; split; [exact HR|destruct (bc_is_root o); cbn; lia]. }
      destruct (bfsc_next (gvcn gvc) F o) as [[x o1]| | |] eqn:E1; try discriminate; cbn [bindR].
      destruct (calls _ j o1 F) as [[ys o2]| | |] eqn:E2; try discriminate; cbn [bindR]; intros [= <- <-].
      destruct (bfs_next F s o x o1 HR Hc E1) as (s1 & Es & HR1 & Hc1 & Er1 & En1); rewrite Es; cbn [bindR].
      destruct (IH s1 o1 ys HR1 Hc1 E2) as (s2 & Es2 & HR2 & En2); rewrite Es2; cbn [bindR]; exists s2; split; [reflexivity|]; split; [exact HR2|].
      rewrite En2, En1, Er1; destruct (bc_is_root o); unfold costs, list_sum; cbn [map fold_right tl]; lia. }
    destruct (acct_take heap0 n [] acct0) as (h0 & c0 & E0 & Ei & HA & En0).
    assert (HR0 : Rb (obfs_new gvc owns n []) (bfsc_new n (nkids gvc n) [])).
    { unfold obfs_new; rewrite E0; constructor; bb; try reflexivity; [cbn; rewrite Ei; reflexivity|exact HA]. }
    destruct (Hsim _ _ _ HR0 ltac:(discriminate) HF) as (s' & E & HR & En).
    destruct (bfs_drop s' o' HR) as (h & Ed & HP & En'); exists h; split; [|split; [|exact HP]].
    - rewrite <- full_outs; apply more_conv with F; [apply more_use_and_drop, more_obfs_reading|unfold use_and_drop; rewrite E; cbn [bindR]; rewrite Ed; reflexivity|discriminate].
    - rewrite En', En; unfold obfs_new; rewrite E0; cbn [ob_heap bc_is_root bfsc_new]; rewrite En0; cbn [h_next heap0 Nat.add].
      pose proof (costs_outs (bfs (positions (nt n))) k) as Hco.
      assert (Er : exists l, bfs (positions (nt n)) = mkPos [] [] n :: l) by (unfold positions; rewrite (nt_unfold _ _ Hnt n); eexists; reflexivity).
      destruct Er as (l & Er); unfold positions in Er |- *; unfold positions in Hco; rewrite Er in *.
      destruct k as [|k]; [cbn; destruct (owns n); reflexivity|].
      cbn [Nat.max firstn map seq nth_error tl] in *; cbn [filter pos_here] in *.
      unfold costs in *; cbn [map list_sum fold_right cost] in Hco; rewrite here_at in Hco; cbn [pos_here] in Hco.
      destruct (owns n); cbn [length] in *; unfold list_sum in *; lia.
  Qed.
End Linear.

Lemma below_root {A} (t : tree A) : forall p ab x, In x (postorder (annotate p ab t)) ->
  exists r, pos_above x ++ [pos_here x] = ab ++ root t :: r.
Proof.
  induction t as [v ts IH] using tree_ind'; intros p ab x; cbn [annotate postorder root]; intros Hi.
  apply in_app_or in Hi; destruct Hi as [Hi|[<-|[]]]; [|exists []; reflexivity].
  apply in_flat_map in Hi; destruct Hi as (c & Hc & Hx); apply In_nth_error in Hc; destruct Hc as (i & Hc).
  rewrite nth_error_mapi in Hc; destruct (nth_error ts i) as [t|] eqn:Et; [|discriminate]; injection Hc as <-.
  rewrite Forall_forall in IH; destruct (IH t (nth_error_In _ _ Et) _ _ _ Hx) as (r & E).
  exists (root t :: r); rewrite E, <- app_assoc; reflexivity.
Qed.
