(** * ProofsMapPath: what the closure of map_path is given, and when it is given freed memory. *)
From Verif Require Import Prelim PrelimFacts Spec SpecFacts SpecPipe SpecObs SpecMapPath ModelNode NodeFacts ModelPre ModelPipe ModelPipeColl
  ModelMapPath ProofsPlain PipeCore PipeBase PipeEnd.

(** ** The vector: the live elements (last first) and the ones left behind *)
Definition vec_of (path left : list N) (cap id : nat) : vec := mkVec (rev path ++ left) (length path) cap id.

Lemma vec_list_of path lft cap id : vec_list (vec_of path lft cap id) = rev path.
Proof. unfold vec_list, vec_of; cbn [v_len v_buf]; rewrite <- rev_length, firstn_app, Nat.sub_diag, firstn_all; apply app_nil_r. Qed.

Lemma vec_push_of grow path lft cap id x : vec_push grow (vec_of path lft cap id) x =
  if length path <? cap then vec_of (x :: path) (tl lft) cap id else vec_of (x :: path) [] (grow cap) (S id).
Proof.
  unfold vec_push; rewrite vec_list_of; cbn [vec_of v_len v_cap v_buf v_id].
  destruct (length path <? cap); unfold vec_of; cbn [rev length].
  - rewrite <- app_assoc; cbn [app]; f_equal.
    rewrite firstn_app, skipn_app, rev_length, Nat.sub_diag, firstn_O, app_nil_r.
    rewrite (firstn_all2 (rev path)) by (rewrite rev_length; lia).
    rewrite (skipn_all2 (rev path)) by (rewrite rev_length; lia).
    replace (S (length path) - length path) with 1 by lia; destruct lft; reflexivity.
  - rewrite app_nil_r; reflexivity.
Qed.

Lemma vec_pop_of x path lft cap id : vec_pop (vec_of (x :: path) lft cap id) = vec_of path (x :: lft) cap id.
Proof. unfold vec_pop, vec_of; cbn [v_len v_buf v_cap v_id length pred rev]; rewrite <- app_assoc; reflexivity. Qed.

Lemma vec_incr_of x path lft cap id : vec_incr_last (vec_of (x :: path) lft cap id) = Ok (vec_of (wrapping_succ x :: path) lft cap id).
Proof.
  unfold vec_incr_last, vec_of; cbn [v_len v_buf v_cap v_id length rev]; rewrite <- !app_assoc; cbn [app].
  do 2 f_equal; rewrite <- (rev_length path), firstn_app, skipn_app, Nat.sub_diag, firstn_all, firstn_O, app_nil_r.
  rewrite (skipn_all2 (rev path)) by lia.
  replace (S (length (rev path)) - length (rev path)) with 1 by lia.
  rewrite app_nth2, Nat.sub_diag by lia; reflexivity.
Qed.

Lemma firstn_rev_app (a b : list N) : firstn (length a) (rev a ++ b) = rev a.
Proof. rewrite <- rev_length, firstn_app, Nat.sub_diag, firstn_all; apply app_nil_r. Qed.

(** ** The search loops *)
Definition loop_rel {Nd I} (inv : list (list I) -> list N -> Prop) (over : list N -> list N)
    (pbody : nat -> list (list I) * list N -> Res (list (list I) * list N + option Nd * (list (list I) * list N)))
    (vbody : nat -> list (list I) * vec -> Res (list (list I) * vec + option Nd * (list (list I) * vec))) : Prop :=
  forall f stack path lft cap id o st' p', inv stack path -> loop pbody f (stack, path) = Ok (o, (st', p')) ->
  exists popped, loop vbody f (stack, vec_of path lft cap id) = Ok (o, (st', vec_of p' (over popped ++ lft) cap id)) /\ inv st' p' /\
    match o with Some _ => exists x x' p0, path = popped ++ x :: p0 /\ p' = x' :: p0 | None => path = popped ++ p' end.

Definition ninv {I} (stack : list (list I)) (path : list N) : Prop := length stack <= length path.

Lemma nary_loop {Nd} : loop_rel ninv (@rev N) (@pt_body Nd) (@vt_body Nd).
Proof.
  intros f; induction f as [|f IH]; intros stack path lft cap id o st' p' Hi E; [discriminate|].
  cbn [loop] in E |- *; destruct stack as [|top rest]; cbn [pt_body vt_body] in E |- *.
  - injection E as <- <- <-; exists []; cbn; auto.
  - unfold ninv in Hi; cbn in Hi; destruct path as [|x path]; [cbn in Hi; lia|].
    destruct top as [|n top']; cbn [tl] in E.
    + rewrite vec_pop_of; cbn in Hi.
      destruct (IH rest path (x :: lft) cap id o st' p' ltac:(unfold ninv; lia) E) as (popped & E1 & Hi' & Ho).
      exists (x :: popped); split; [rewrite E1; cbn [rev]; rewrite <- app_assoc; reflexivity|split; [exact Hi'|]].
      destruct o; [destruct Ho as (y & y' & p0 & -> & ->); exists y, y', p0; auto|rewrite Ho; reflexivity].
    + rewrite vec_incr_of; cbn in E |- *; injection E as <- <- <-; exists []; split; [reflexivity|split; [exact Hi|]].
      exists x, (wrapping_succ x), path; auto.
Qed.

(** In a binary tree the segment tells how many of the two sides have been tried. *)
Fixpoint binv {I} (stack : list (list I)) (path : list N) : Prop :=
  match stack with
  | [] => True
  | top :: rest => match path with [] => False | x :: path' => length top <= 2 /\ x = seg_before (2 - length top) /\ binv rest path' end
  end.

Lemma binary_scan_rel {Nd} top : forall x path lft cap id, length top <= 2 -> x = seg_before (2 - length top) ->
  match prec_scan (Nd := Nd) top (x :: path) with
  | Ok (found, top', p') =>
      vt_scan top (vec_of (x :: path) lft cap id) = Ok (found, top', vec_of p' lft cap id) /\ length top' <= 2 /\
      p' = seg_before (2 - length top') :: path /\ match found with None => top' = [] | Some _ => True end
  | _ => True
  end.
Proof.
  induction top as [|o top IH]; intros x path lft cap id Hl ->; cbn [prec_scan vt_scan]; [cbn; auto|].
  rewrite vec_incr_of; cbn [incr_last bindR]; rewrite seg_succ.
  cbn [length] in Hl |- *.
  replace (wrap (2 - S (length top))) with (seg_before (2 - length top)) by (replace (2 - length top) with (S (2 - S (length top))) by lia; reflexivity).
  destruct o as [n|]; [repeat split; lia|].
  apply IH; [lia|reflexivity].
Qed.

Lemma binary_loop {Nd} : loop_rel binv (fun popped => repeat 1%N (length popped)) (@ptb_body Nd) (@vtb_body Nd).
Proof.
  intros f; induction f as [|f IH]; intros stack path lft cap id o st' p' Hi E; [discriminate|].
  cbn [loop] in E |- *; destruct stack as [|top rest]; cbn [ptb_body vtb_body] in E |- *.
  - injection E as <- <- <-; exists []; cbn; auto.
  - destruct path as [|x path]; [destruct Hi|]; destruct Hi as (Hl & Hx & Hi).
    pose proof (binary_scan_rel top x path lft cap id Hl Hx) as Hs.
    destruct (prec_scan top (x :: path)) as [[[found top'] p1]| | |]; cbn [bindR] in E; try discriminate.
    destruct Hs as (Es & Hl' & -> & Hf); rewrite Es; cbn [bindR].
    destruct found as [n|].
    + injection E as <- <- <-; exists []; split; [reflexivity|split; [cbn; auto|]]; eexists x, _, path; auto.
    + subst top'; cbn [tl length] in E |- *; rewrite vec_pop_of.
      destruct (IH rest path (seg_before (2 - 0) :: lft) cap id o st' p' Hi E) as (popped & E1 & Hi' & Ho).
      exists (x :: popped); split; [|split; [exact Hi'|]].
      * rewrite E1; cbn [length repeat]; rewrite repeat_cons, <- app_assoc; reflexivity.
      * destruct o; [destruct Ho as (y & y' & p0 & -> & ->); exists y, y', p0; auto|rewrite Ho; reflexivity].
Qed.

(** ** One advance of the path-tracking iterator, and the whole run *)
Section Run.
  Context {Nd V I C B G : Type} (grow : nat -> nat) (gv : Nd -> V * C) (into_iter : C -> list I).
  Variable pbody : nat -> list (list I) * list N -> Res (list (list I) * list N + option Nd * (list (list I) * list N)).
  Variable vbody : nat -> list (list I) * vec -> Res (list (list I) * vec + option Nd * (list (list I) * vec)).
  Variable inv : list (list I) -> list N -> Prop.
  Variable over : list N -> list N.
  Hypothesis Hloop : loop_rel inv over pbody vbody.
  Hypothesis Hpush : forall stack path c, inv stack path -> inv (into_iter c :: stack) (usize_max :: path).
  Hypothesis over_len : forall l, length (over l) = length l.
  Hypothesis over_cons : forall x l, exists y, over (x :: l) = over l ++ [y].
  Hypothesis Hgrow : forall c, c < grow c.

  (** What is seen, on stored segments. *)
  Variable seen : list N -> list N -> list N.
  Hypothesis seen_child : forall q p, length q < length p -> seen q p = q.
  Hypothesis seen_other : forall popped x x' p0, seen (rev (popped ++ x :: p0)) (rev (x' :: p0)) = rev (x' :: p0) ++ over popped.

  Notation vnext := (vt_next_with grow gv into_iter vbody).
  Notation pnext := (pt_next_with gv into_iter pbody).

  Definition rel (cap id : nat) (sv : vtrack Nd I C) (s : ptrack Nd I C) : Prop :=
    vt_root sv = pt_root s /\ vt_deck sv = pt_deck s /\ vt_stack sv = pt_stack s /\
    (exists lft, vt_path sv = vec_of (pt_path s) lft cap id) /\ inv (pt_stack s) (pt_path s).

  Lemma next_root cap id sv s f o s' : rel cap id sv s -> pt_root s <> None -> pnext f s = Ok (o, s') ->
    exists sv', vnext f sv = Ok (o, sv') /\ rel cap id sv' s' /\ pt_root s' = None /\ pt_deck s' <> None /\ pt_path s' = pt_path s /\
      forall sl, vec_read (vt_path sv') sl = vec_read (vt_path sv) sl.
  Proof.
    intros (Er & Ed & Es & (lft & Ep) & Hi) Hr E; unfold pt_next_with in E; unfold vt_next_with; rewrite Er.
    destruct (pt_root s) as [root|]; [|congruence]; destruct (gv root) as [value children]; injection E as <- <-.
    eexists; split; [reflexivity|]; split; [|cbn; repeat split; congruence].
    split; [reflexivity|split; [reflexivity|split; [exact Es|split; [|exact Hi]]]]; exists lft; exact Ep.
  Qed.

  Lemma next_deck cap id sv s f o s' : rel cap id sv s -> pt_root s = None -> pt_deck s <> None -> pnext f s = Ok (o, s') ->
    exists sv', vnext f sv = Ok (o, sv') /\
      rel (if length (pt_path s) <? cap then cap else grow cap) (if length (pt_path s) <? cap then id else S id) sv' s' /\
      match o with
      | None => True
      | Some _ => pt_root s' = None /\ pt_deck s' <> None /\
          vec_read (vt_path sv') (vec_slice (vt_path sv)) =
          (if (length (pt_path s) <? cap) || (length (pt_path s) =? 0) then Ok (seen (rev (pt_path s)) (rev (pt_path s'))) else UB)
      end.
  Proof.
    intros (Er & Ed & Es & (lft & Ep) & Hi) Hr Hd E; unfold pt_next_with in E; unfold vt_next_with; rewrite Er, Hr, Ed in *.
    destruct (pt_deck s) as [c|]; [clear Hd|congruence]; rewrite Es, Ep, vec_push_of.
    destruct (loop pbody f (into_iter c :: pt_stack s, usize_max :: pt_path s)) as [[o1 [st' p']]| | |] eqn:El; cbn [bindR] in E; try discriminate.
    set (cap' := if length (pt_path s) <? cap then cap else grow cap).
    set (id' := if length (pt_path s) <? cap then id else S id).
    set (lft' := if length (pt_path s) <? cap then tl lft else []).
    replace (if length (pt_path s) <? cap then vec_of (usize_max :: pt_path s) (tl lft) cap id else vec_of (usize_max :: pt_path s) [] (grow cap) (S id))
      with (vec_of (usize_max :: pt_path s) lft' cap' id') by (unfold lft', cap', id'; destruct (length (pt_path s) <? cap); reflexivity).
    destruct (Hloop f _ _ lft' cap' id' _ _ _ (Hpush _ _ c Hi) El) as (popped & Ev & Hi' & Ho).
    rewrite Ev; cbn [bindR].
    destruct o1 as [node|].
    - destruct (gv node) as [value children]; injection E as <- <-.
      eexists; split; [reflexivity|]; split.
      { split; [reflexivity|split; [reflexivity|split; [reflexivity|split; [|exact Hi']]]]; eexists; reflexivity. }
      split; [reflexivity|split; [discriminate|]].
      cbn [vt_path pt_path]; unfold vec_read, vec_slice; cbn [fst snd vec_of v_len v_id v_buf].
      destruct Ho as (x & x' & p0 & E1 & ->).
      assert (Hs : firstn (length (pt_path s)) (rev (x' :: p0) ++ over popped ++ lft') = seen (rev (pt_path s)) (rev (x' :: p0))).
      { destruct popped as [|y popped]; cbn [app] in E1.
        - injection E1 as _ <-.
          rewrite seen_child by (rewrite !rev_length; cbn; lia).
          cbn [rev]; rewrite <- !app_assoc; apply firstn_rev_app.
        - injection E1 as _ E1; rewrite E1, seen_other.
          destruct (over_cons y popped) as (z & ->).
          rewrite <- !app_assoc, app_assoc.
          replace (length (popped ++ x :: p0)) with (length (rev (x' :: p0) ++ over popped)) by (rewrite !app_length, over_len, rev_length; cbn; lia).
          rewrite firstn_app, Nat.sub_diag, firstn_all, app_nil_r; reflexivity. }
      destruct (pt_path s) as [|y q] eqn:Eq.
      + cbn [length]; rewrite orb_true_r, seen_child by (cbn [rev length]; rewrite app_length; cbn; lia); reflexivity.
      + cbn [length Nat.eqb] in *; rewrite orb_false_r; unfold id'.
        destruct (S (length q) <? cap).
        * rewrite Nat.eqb_refl; unfold vec_of; cbn [v_buf]; rewrite Hs; reflexivity.
        * replace (id =? S id) with false by (symmetry; apply Nat.eqb_neq; lia); reflexivity.
    - injection E as <- <-; eexists; split; [reflexivity|]; split; [|exact Logic.I].
      split; [reflexivity|split; [reflexivity|split; [reflexivity|split; [|exact Hi']]]]; eexists; reflexivity.
  Qed.

  Hypothesis vbody_const : forall f f' s, vbody f s = vbody f' s.

  Lemma vloop_more f : forall f' s r, loop vbody f s = Ok r -> f <= f' -> loop vbody f' s = Ok r.
  Proof.
    induction f as [|f IH]; intros f' s r E Hf; [discriminate|]; destruct f' as [|f']; [lia|].
    cbn [loop] in E |- *; rewrite (vbody_const f' f); destruct (vbody f s) as [[s1|r1]| | |]; try discriminate; [|exact E].
    apply IH; [exact E|lia].
  Qed.

  Lemma vnext_more f f' sv r : vnext f sv = Ok r -> f <= f' -> vnext f' sv = Ok r.
  Proof.
    unfold vt_next_with; intros E Hf; destruct (vt_root sv); [exact E|].
    destruct (match vt_deck sv with Some _ => _ | None => _ end) as [stack path].
    destruct (loop vbody f (stack, path)) as [[o1 s1]| | |] eqn:El; try discriminate.
    rewrite (vloop_more _ _ _ _ El Hf); exact E.
  Qed.

  Lemma conv_root cap id sv s o s' : rel cap id sv s -> pt_root s <> None -> (fun f => pnext f s) ⇓ Ok (o, s') ->
    exists sv', (fun f => vnext f sv) ⇓ Ok (o, sv') /\ rel cap id sv' s' /\ pt_root s' = None /\ pt_deck s' <> None /\ pt_path s' = pt_path s /\
      forall sl, vec_read (vt_path sv') sl = vec_read (vt_path sv) sl.
  Proof.
    intros Hr H1 [F HF]; destruct (next_root cap id sv s F o s' Hr H1 (HF F (le_n F))) as (sv' & E & H).
    exists sv'; split; [exists F; intros f Hf; eapply vnext_more; eassumption|exact H].
  Qed.

  Lemma conv_deck cap id sv s o s' : rel cap id sv s -> pt_root s = None -> pt_deck s <> None -> (fun f => pnext f s) ⇓ Ok (o, s') ->
    exists sv', (fun f => vnext f sv) ⇓ Ok (o, sv') /\
      rel (if length (pt_path s) <? cap then cap else grow cap) (if length (pt_path s) <? cap then id else S id) sv' s' /\
      match o with
      | None => True
      | Some _ => pt_root s' = None /\ pt_deck s' <> None /\
          vec_read (vt_path sv') (vec_slice (vt_path sv)) =
          (if (length (pt_path s) <? cap) || (length (pt_path s) =? 0) then Ok (seen (rev (pt_path s)) (rev (pt_path s'))) else UB)
      end.
  Proof.
    intros Hr H1 H2 [F HF]; destruct (next_deck cap id sv s F o s' Hr H1 H2 (HF F (le_n F))) as (sv' & E & H).
    exists sv'; split; [exists F; intros f Hf; eapply vnext_more; eassumption|exact H].
  Qed.

  (** *** The run until it ends, or until freed memory is read *)
  Context (f : G -> list N -> V -> G * B).
  Definition mpipe (s0 : vtrack Nd I C) (g0 : G) : pipe B :=
    map_path (mkPipe (vtrack Nd I C) s0 vnext (fun s => vec_list (vt_path s)) vt_prune)
      (fun s => vec_slice (vt_path s)) (fun s => vec_read (vt_path s)) f g0.

  (** Items are emitted, and then freed memory is read. *)
  Inductive blows {A X} (P : pipe A) (pok : list N -> X -> Prop) : p_state P -> list (A * X) -> Prop :=
  | bl_now s : (fun f => p_next P f s) ⇓ UB -> blows P pok s []
  | bl_step s a x s1 l : (fun f => p_next P f s) ⇓ Ok (Some a, s1) -> pok (p_path P s1) x -> blows P pok s1 l -> blows P pok s ((a, x) :: l).

  Definition xseg (x : pos Nd) : list N := map wrap (pos_path x).
  Fixpoint seens (q : list N) (ps : list (list N)) : list (list N) :=
    match ps with [] => [] | p :: ps' => seen q p :: seens p ps' end.
  Definition call (g : G) (pv : list N * V) : G * B := f g (fst pv) (snd pv).

  Lemma read_conv s s1 g v sv sv1 p : (fun f => pnext f s) ⇓ Ok (Some v, s1) -> (fun k => vnext k sv) ⇓ Ok (Some v, sv1) ->
    vec_read (vt_path sv1) (vec_slice (vt_path sv)) = Ok p -> forall s0 g0,
    (fun k => p_next (mpipe s0 g0) k (sv, g)) ⇓ Ok (Some (snd (f g p v)), (sv1, fst (f g p v))).
  Proof.
    intros _ Hv Hr s0 g0; cbn; unfold map_path_next; cbn [fst snd p_next]; eapply conv_bind; [exact Hv|].
    cbn; rewrite Hr; cbn; destruct (f g p v); now_conv.
  Qed.

  Lemma mp_items s0 g0 b s l s' : items (base_pipe gv into_iter pbody b) pok_exact s l s' -> forall cap id sv g,
    rel cap id sv s -> pt_root s = None -> pt_deck s <> None ->
    (cap = grow 0 \/ cap = 0 /\ pt_path s = []) ->
    Forall (fun q => length q < grow 0) (removelast (rev (pt_path s) :: map (fun ax => xseg (snd ax)) l)) ->
    let w := map_accum call g (combine (seens (rev (pt_path s)) (map (fun ax => xseg (snd ax)) l)) (map fst l)) in
    exists sv', items (mpipe s0 g0) pok_exact (sv, g) (combine (snd w) (map snd l)) (sv', fst w).
  Proof.
    induction 1 as [s s' Hn|s a x s1 l s' Hn Hp _ IH]; intros cap id sv g Hrel Hr Hd Hc Hf; cbn [p_next base_pipe] in Hn.
    - destruct (conv_deck _ _ _ _ _ _ Hrel Hr Hd Hn) as (sv' & Hv & _); exists sv'; cbn.
      apply it_nil; cbn; unfold map_path_next; cbn [fst snd p_next]; eapply conv_bind; [exact Hv|]; now_conv.
    - destruct (conv_deck _ _ _ _ _ _ Hrel Hr Hd Hn) as (sv1 & Hv & Hrel1 & Hr1 & Hd1 & Hread).
      assert (Ep : rev (pt_path s1) = xseg x) by exact Hp.
      assert (Hlt : length (pt_path s) < grow 0).
      { rewrite <- rev_length; cbn [map removelast] in Hf; inversion Hf; assumption. }
      assert (Hok : (length (pt_path s) <? cap) || (length (pt_path s) =? 0) = true).
      { destruct Hc as [->|[-> ->]]; [rewrite (proj2 (Nat.ltb_lt _ _) Hlt); reflexivity|reflexivity]. }
      rewrite Hok, Ep in Hread.
      cbv zeta; cbn [map removelast snd fst seens combine map_accum].
      change (call g (seen (rev (pt_path s)) (xseg x), a)) with (f g (seen (rev (pt_path s)) (xseg x)) a).
      pose proof (read_conv s s1 g a sv sv1 _ Hn Hv Hread s0 g0) as Hm.
      destruct (f g (seen (rev (pt_path s)) (xseg x)) a) as [g1 bb]; cbn [fst snd] in Hm.
      cbn [map removelast] in Hf; inversion Hf as [|? ? _ Hf1]; subst.
      destruct (IH _ _ sv1 g1 Hrel1 Hr1 Hd1) as (sv' & Hit).
      { left; destruct Hc as [->|[-> E0]]; [rewrite (proj2 (Nat.ltb_lt _ _) Hlt); reflexivity|reflexivity]. }
      { rewrite Ep; exact Hf1. }
      rewrite Ep in Hit; cbv zeta in Hit.
      destruct (map_accum _ g1 _) as [g2 outs]; cbn [fst snd combine map] in Hit |- *.
      exists sv'; eapply it_cons; [exact Hm| |exact Hit].
      cbn [p_path mpipe map_path fst]; destruct Hrel1 as (_ & _ & _ & (lft & ->) & _); rewrite vec_list_of, Ep; reflexivity.
  Qed.

  Lemma mp_blows s0 g0 b s l s' : items (base_pipe gv into_iter pbody b) pok_exact s l s' -> forall cap id sv g,
    rel cap id sv s -> pt_root s = None -> pt_deck s <> None ->
    (cap = grow 0 \/ cap = 0 /\ pt_path s = []) ->
    Exists (fun q => grow 0 <= length q) (removelast (rev (pt_path s) :: map (fun ax => xseg (snd ax)) l)) ->
    exists outs l1 l2, l = l1 ++ l2 /\ length outs = length l1 /\ blows (mpipe s0 g0) pok_exact (sv, g) (combine outs (map snd l1)).
  Proof.
    induction 1 as [s s' Hn|s a x s1 l s' Hn Hp _ IH]; intros cap id sv g Hrel Hr Hd Hc Hf; cbn [p_next base_pipe] in Hn.
    - cbn in Hf; inversion Hf.
    - destruct (conv_deck _ _ _ _ _ _ Hrel Hr Hd Hn) as (sv1 & Hv & Hrel1 & Hr1 & Hd1 & Hread).
      assert (Ep : rev (pt_path s1) = xseg x) by exact Hp.
      pose proof (Hgrow 0) as Hg0.
      destruct (Nat.lt_ge_cases (length (pt_path s)) (grow 0)) as [Hlt|Hge].
      + assert (Hok : (length (pt_path s) <? cap) || (length (pt_path s) =? 0) = true).
        { destruct Hc as [->|[-> ->]]; [rewrite (proj2 (Nat.ltb_lt _ _) Hlt); reflexivity|reflexivity]. }
        rewrite Hok, Ep in Hread.
        pose proof (read_conv s s1 g a sv sv1 _ Hn Hv Hread s0 g0) as Hm.
        destruct (IH _ _ sv1 (fst (f g (seen (rev (pt_path s)) (xseg x)) a)) Hrel1 Hr1 Hd1) as (outs & l1 & l2 & -> & Hl & Hb).
        { left; destruct Hc as [->|[-> E0]]; [rewrite (proj2 (Nat.ltb_lt _ _) Hlt); reflexivity|reflexivity]. }
        { cbn [map removelast] in Hf; rewrite Ep; apply Exists_cons in Hf as [Hf|Hf]; [rewrite rev_length in Hf; lia|exact Hf]. }
        exists (snd (f g (seen (rev (pt_path s)) (xseg x)) a) :: outs), ((a, x) :: l1), l2; split; [reflexivity|split; [cbn; lia|]].
        cbn [map combine snd]; eapply bl_step; [exact Hm| |exact Hb].
        cbn [p_path mpipe map_path fst]; destruct Hrel1 as (_ & _ & _ & (lft & ->) & _); rewrite vec_list_of, Ep; reflexivity.
      + assert (Hno : (length (pt_path s) <? cap) || (length (pt_path s) =? 0) = false).
        { destruct Hc as [->|[-> E0]]; [|rewrite E0 in Hge; cbn in Hge; lia].
          rewrite (proj2 (Nat.ltb_ge _ _) Hge); apply Nat.eqb_neq; lia. }
        rewrite Hno in Hread.
        exists [], [], ((a, x) :: l); split; [reflexivity|split; [reflexivity|]]; apply bl_now.
        cbn; unfold map_path_next; cbn [fst snd p_next]; eapply conv_bind; [exact Hv|]; cbn; rewrite Hread; now_conv.
  Qed.
End Run.
