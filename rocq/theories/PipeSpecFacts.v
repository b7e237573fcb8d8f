(** * PipeSpecFacts: what the walks and folds of SpecPipe.v amount to, said in other words. *)
From Verif Require Import Prelim PrelimFacts Spec SpecFacts SpecPipe SpecObs ModelNode PipeCore PipeEnd ProofsPipe PipePure.

(** ** Relabelling before walking *)
Lemma walk_relabel {G X Y A} (vis : G -> Y -> G * outcome A) (h : X -> Y) t : forall g,
  walk (fun g x => vis g (h x)) g t = walk vis g (tree_map h t).
Proof.
  induction t as [x ts IH] using tree_ind'; intros g; cbn [tree_map]; rewrite !walk_node.
  destruct (vis g (h x)) as [g1 [|a [|]]]; try reflexivity.
  assert (E : forall g, walk_list (walk (fun g x => vis g (h x))) g ts = walk_list (walk vis) g (map (tree_map h) ts)).
  { clear g g1; induction IH as [|t ts Ht _ IHl]; intros g; [reflexivity|]; cbn [map]; rewrite !walk_list_cons, Ht.
    destruct (walk vis g (tree_map h t)) as [g1 o]; rewrite IHl; reflexivity. }
  rewrite E; reflexivity.
Qed.
Lemma bwalk_relabel {G X Y A} (vis : G -> Y -> G * outcome A) (h : X -> Y) t : forall g,
  bwalk (fun g x => vis g (h x)) g t = bwalk vis g (btree_map h t).
Proof.
  induction t as [x l r IHl IHr] using btree_ind'; intros g; cbn [btree_map]; rewrite !bwalk_node.
  destruct (vis g (h x)) as [g1 [|a [|]]]; try reflexivity.
  assert (El : forall g, walk_side (bwalk (fun g x => vis g (h x))) g l = walk_side (bwalk vis) g (option_map (btree_map h) l))
    by (intros g0; destruct l; cbn in *; auto).
  assert (Er : forall g, walk_side (bwalk (fun g x => vis g (h x))) g r = walk_side (bwalk vis) g (option_map (btree_map h) r))
    by (intros g0; destruct r; cbn in *; auto).
  rewrite El; destruct (walk_side (bwalk vis) g1 _) as [g2 l']; rewrite Er; reflexivity.
Qed.

Lemma positions_val {Nd V} (val : Nd -> V) t : tree_map (fun x => val (pos_here x)) (positions t) = tree_map val t.
Proof. rewrite <- (tree_map_map pos_here val); unfold positions; rewrite annotate_here; reflexivity. Qed.
Lemma bpositions_val {Nd V} (val : Nd -> V) t : btree_map (fun x => val (pos_here x)) (bpositions t) = btree_map val t.
Proof. rewrite <- (btree_map_map pos_here val); unfold bpositions; rewrite bannotate_here; reflexivity. Qed.

(** ** Looking at a part of the state *)
Lemma walk_state {S G X A} (proj : S -> G) (vis : G -> X -> G * outcome A) (vis' : S -> X -> S * outcome A) :
  (forall s x, vis (proj s) x = (proj (fst (vis' s x)), snd (vis' s x))) ->
  forall t s, walk vis (proj s) t = (proj (fst (walk vis' s t)), snd (walk vis' s t)).
Proof.
  intros Hv; induction t as [x ts IH] using tree_ind'; intros s; rewrite !walk_node, Hv.
  destruct (vis' s x) as [s1 [|a [|]]]; cbn [fst snd]; try reflexivity.
  assert (E : forall s, walk_list (walk vis) (proj s) ts = (proj (fst (walk_list (walk vis') s ts)), snd (walk_list (walk vis') s ts))).
  { clear s s1; induction IH as [|t ts Ht _ IHl]; intros s; [reflexivity|]; rewrite !walk_list_cons, Ht.
    destruct (walk vis' s t) as [s1 o]; cbn [fst snd]; rewrite IHl; destruct (walk_list (walk vis') s1 ts); reflexivity. }
  rewrite E; destruct (walk_list (walk vis') s1 ts); reflexivity.
Qed.
Lemma bwalk_state {S G X A} (proj : S -> G) (vis : G -> X -> G * outcome A) (vis' : S -> X -> S * outcome A) :
  (forall s x, vis (proj s) x = (proj (fst (vis' s x)), snd (vis' s x))) ->
  forall t s, bwalk vis (proj s) t = (proj (fst (bwalk vis' s t)), snd (bwalk vis' s t)).
Proof.
  intros Hv; induction t as [x l r IHl IHr] using btree_ind'; intros s; rewrite !bwalk_node, Hv.
  destruct (vis' s x) as [s1 [|a [|]]]; cbn [fst snd]; try reflexivity.
  assert (El : forall s, walk_side (bwalk vis) (proj s) l = (proj (fst (walk_side (bwalk vis') s l)), snd (walk_side (bwalk vis') s l)))
    by (intros s0; destruct l; cbn in *; auto).
  assert (Er : forall s, walk_side (bwalk vis) (proj s) r = (proj (fst (walk_side (bwalk vis') s r)), snd (walk_side (bwalk vis') s r)))
    by (intros s0; destruct r; cbn in *; auto).
  rewrite El; destruct (walk_side (bwalk vis') s1 l) as [s2 l']; cbn [fst snd]; rewrite Er; destruct (walk_side (bwalk vis') s2 r); reflexivity.
Qed.

(** ** map: same shape, and the closure runs along the preorder *)
Lemma map_accum_app {G A B} (f : G -> A -> G * B) a b : forall g,
  map_accum f g (a ++ b) = let '(g1, x) := map_accum f g a in let '(g2, y) := map_accum f g1 b in (g2, x ++ y).
Proof.
  induction a as [|v a IH]; intros g; cbn; [destruct (map_accum f g b); reflexivity|].
  destruct (f g v) as [g1 w]; rewrite IH; destruct (map_accum f g1 a) as [g2 x], (map_accum f g2 b) as [g3 y]; reflexivity.
Qed.

Lemma walk_map_accum {G A B} (f : G -> A -> G * B) t : forall g, exists g' t',
  walk (fun g v => let '(g1, b) := f g v in (g1, Keep b true)) g t = (g', Some t') /\
  same_shape t' t /\ map_accum f g (preorder t) = (g', preorder t').
Proof.
  induction t as [v ts IH] using tree_ind'; intros g; rewrite walk_node; cbn [preorder map_accum].
  destruct (f g v) as [g1 b].
  assert (E : exists g' ts', walk_list (walk (fun g v => let '(g1, b) := f g v in (g1, Keep b true))) g1 ts = (g', ts') /\
    map (tree_map (fun _ => tt)) ts' = map (tree_map (fun _ => tt)) ts /\ map_accum f g1 (flat_map preorder ts) = (g', flat_map preorder ts')).
  { clear g; revert g1; induction IH as [|t ts Ht _ IHl]; intros g1.
    - exists g1, []; repeat split; reflexivity.
    - destruct (Ht g1) as (g2 & t' & E1 & Sh & Acc); destruct (IHl g2) as (g3 & ts' & E2 & Sh2 & Acc2).
      exists g3, (t' :: ts'); rewrite walk_list_cons, E1, E2; split; [reflexivity|split].
      + cbn [map]; rewrite Sh2; f_equal; exact Sh.
      + cbn [flat_map]; rewrite map_accum_app, Acc, Acc2; reflexivity. }
  destruct E as (g' & ts' & E1 & Sh & Acc); rewrite E1, Acc.
  exists g', (TNode b ts'); split; [reflexivity|split; [|reflexivity]].
  unfold same_shape; cbn; rewrite Sh; reflexivity.
Qed.

Lemma bwalk_map_accum {G A B} (f : G -> A -> G * B) t : forall g, exists g' t',
  bwalk (fun g v => let '(g1, b) := f g v in (g1, Keep b true)) g t = (g', Some t') /\
  bsame_shape t' t /\ map_accum f g (preorder (flat t)) = (g', preorder (flat t')).
Proof.
  induction t as [v l r IHl IHr] using btree_ind'; intros g; rewrite bwalk_node; cbn [flat preorder map_accum].
  destruct (f g v) as [g1 b].
  assert (E : forall o, OForall (fun t => forall g, exists g' t',
      bwalk (fun g v => let '(g1, b) := f g v in (g1, Keep b true)) g t = (g', Some t') /\
      bsame_shape t' t /\ map_accum f g (preorder (flat t)) = (g', preorder (flat t'))) o -> forall g, exists g' o',
    walk_side (bwalk (fun g v => let '(g1, b) := f g v in (g1, Keep b true))) g o = (g', o') /\
    option_map (btree_map (fun _ => tt)) o' = option_map (btree_map (fun _ => tt)) o /\
    map_accum f g (flat_map preorder (opt_list (option_map flat o))) = (g', flat_map preorder (opt_list (option_map flat o')))).
  { intros [t|] Ho g0; cbn in *.
    - destruct (Ho g0) as (g' & t' & E1 & Sh & Acc); exists g', (Some t'); rewrite E1; split; [reflexivity|split].
      + cbn; rewrite Sh; reflexivity.
      + cbn; rewrite !app_nil_r; exact Acc.
    - exists g0, None; repeat split; reflexivity. }
  destruct (E l IHl g1) as (g2 & l' & E1 & Sh1 & Acc1); destruct (E r IHr g2) as (g3 & r' & E2 & Sh2 & Acc2).
  rewrite E1, E2; exists g3, (BNode b l' r'); split; [reflexivity|split].
  - unfold bsame_shape; cbn; rewrite Sh1, Sh2; reflexivity.
  - assert (F : forall X (v : X) a b, flat (BNode v a b) = TNode v (opt_list (option_map flat a) ++ opt_list (option_map flat b)))
      by (intros X w [a|] [c|]; reflexivity).
    specialize (F B b l' r') as F1; cbn [flat] in F1; injection F1 as F1.
    specialize (F A v l r) as F2; cbn [flat] in F2; injection F2 as F2.
    cbn [flat preorder]; rewrite F1, F2, !flat_map_app, map_accum_app, Acc1, Acc2; reflexivity.
Qed.

(** ** prune: which values the closure sees *)
Lemma walk_examined {A} (f : A -> bool) t : forall log,
  fst (walk (fun log v => (log ++ [v], if f v then Drop else Keep v true)) log t) = log ++ examined f t.
Proof.
  induction t as [v ts IH] using tree_ind'; intros log; rewrite walk_node; cbn [examined].
  destruct (f v); [reflexivity|].
  assert (E : forall log, fst (walk_list (walk (fun log v => (log ++ [v], if f v then Drop else Keep v true))) log ts) = log ++ flat_map (examined f) ts).
  { clear log; induction IH as [|t ts Ht _ IHl]; intros log; [rewrite walk_list_nil, app_nil_r; reflexivity|].
    rewrite walk_list_cons; specialize (Ht log); destruct (walk _ log t) as [l1 o]; cbn [fst] in Ht; subst l1.
    specialize (IHl (log ++ examined f t)); destruct (walk_list _ _ ts) as [l2 os]; cbn [fst] in *; subst l2.
    cbn [flat_map]; rewrite app_assoc; reflexivity. }
  specialize (E (log ++ [v])); destruct (walk_list _ _ ts) as [l2 os]; cbn [fst] in *; subst l2.
  rewrite <- app_assoc; reflexivity.
Qed.

(** ** fold: the closure runs along the postorder *)
Lemma fold_postorder {A O} (f : list O -> A -> O) t : forall log,
  fst (fold_up (fun log os v => (log ++ [v], f os v)) log t) = log ++ postorder t.
Proof.
  induction t as [v ts IH] using tree_ind'; intros log; cbn [fold_up postorder].
  assert (E : forall log, fst (fold_list (fold_up (fun log os v => (log ++ [v], f os v))) log ts) = log ++ flat_map postorder ts).
  { clear log; induction IH as [|t ts Ht _ IHl]; intros log; [cbn; rewrite app_nil_r; reflexivity|].
    rewrite fold_list_cons; specialize (Ht log); destruct (fold_up _ log t) as [l1 o]; cbn [fst] in Ht; subst l1.
    specialize (IHl (log ++ postorder t)); destruct (fold_list _ _ ts) as [l2 os]; cbn [fst] in *; subst l2.
    cbn [flat_map]; rewrite app_assoc; reflexivity. }
  specialize (E log); destruct (fold_list _ _ ts) as [l2 os]; cbn [fst] in *; subst l2.
  rewrite <- app_assoc; reflexivity.
Qed.
Lemma bfold_postorder {A O} (f : option O * option O -> A -> O) t : forall log,
  fst (bfold_up (fun log os v => (log ++ [v], f os v)) log t) = log ++ postorder (flat t).
Proof.
  induction t as [v l r IHl IHr] using btree_ind'; intros log; rewrite bfold_up_node; cbn [flat postorder].
  assert (E : forall o, OForall (fun t => forall log, fst (bfold_up (fun log os v => (log ++ [v], f os v)) log t) = log ++ postorder (flat t)) o ->
    forall log, fst (fold_side (bfold_up (fun log os v => (log ++ [v], f os v))) log o) = log ++ flat_map postorder (opt_list (option_map flat o))).
  { intros [t|] Ho l0; cbn in *; [|rewrite app_nil_r; reflexivity].
    rewrite app_nil_r, <- (Ho l0); destruct (bfold_up _ l0 t); reflexivity. }
  pose proof (E l IHl log) as El; destruct (fold_side _ log l) as [l1 a]; cbn [fst] in El; subst l1.
  pose proof (E r IHr (log ++ flat_map postorder (opt_list (option_map flat l)))) as Er; destruct (fold_side _ _ r) as [l2 b]; cbn [fst] in *; subst l2.
  rewrite flat_map_app, <- !app_assoc; destruct l, r; reflexivity.
Qed.

(** ** truncate, position by position *)
Lemma truncate_at {A} (t : tree A) : forall p d,
  option_map root (subtree_at (truncate d t) p) = if length p <=? d then option_map root (subtree_at t p) else None.
Proof.
  induction t as [v ts IH] using tree_ind'; intros [|i p] d; [destruct d; reflexivity|].
  destruct d as [|d]; cbn [truncate subtree_at subs length Nat.leb]; [destruct i; reflexivity|].
  rewrite nth_error_map; destruct (nth_error ts i) as [c|] eqn:E; cbn [option_map].
  - rewrite Forall_forall in IH; apply (IH c (nth_error_In _ _ E)).
  - destruct (length p <=? d); reflexivity.
Qed.
Lemma btruncate_at {A} (t : btree A) : forall p d,
  option_map broot (bsubtree_at (btruncate d t) p) = if length p <=? d then option_map broot (bsubtree_at t p) else None.
Proof.
  induction t as [v l r IHl IHr] using btree_ind'; intros [|i p] d; [destruct d; reflexivity|].
  cbn [btruncate bsubtree_at]; destruct d as [|d]; cbn [length Nat.leb]; [destruct i as [|[|i]]; reflexivity|].
  destruct i as [|[|i]]; cbn [bchild]; [destruct l as [c|]; cbn in *|destruct r as [c|]; cbn in *|]; auto; destruct (length p <=? d); reflexivity.
Qed.

(** ** When the recorded positions are the positions in the resulting tree *)
Lemma fold_placed {A Nd G O} (f : G -> list O -> list nat -> A -> G * O) (t : tree (A * pos Nd)) : forall p ab g, placed p t ->
  fold_up (fun g os ax => f g os (pos_path (snd ax)) (fst ax)) g t =
  fold_up (fun g os x => f g os (pos_path x) (pos_here x)) g (annotate p ab (tree_map fst t)).
Proof.
  induction t as [[a x] ts IH] using tree_ind'; intros p ab g Hp; apply placed_node in Hp as [Hx Hp]; cbn [snd] in Hx.
  cbn [tree_map annotate fold_up fst snd pos_path pos_here]; rewrite Hx.
  assert (E : forall i g, placed_list p i ts ->
    fold_list (fold_up (fun g os ax => f g os (pos_path (snd ax)) (fst ax))) g ts =
    fold_list (fold_up (fun g os x => f g os (pos_path x) (pos_here x))) g (mapi (fun i c => annotate (p ++ [i]) (ab ++ [a]) c) i (map (tree_map fst) ts))).
  { clear Hp g; induction IH as [|t ts Ht _ IHl]; intros i g Hp; [reflexivity|]; destruct Hp as [Hp1 Hp].
    cbn [map]; rewrite mapi_cons, !fold_list_cons, (Ht _ (ab ++ [a]) _ Hp1).
    destruct (fold_up _ g _); rewrite (IHl (S i) _ Hp); reflexivity. }
  rewrite (E 0 g Hp); reflexivity.
Qed.
Lemma bfold_placed {A Nd G O} (f : G -> option O * option O -> list nat -> A -> G * O) (t : btree (A * pos Nd)) : forall p ab g, bbelow p t ->
  bfold_up (fun g os ax => f g os (pos_path (snd ax)) (fst ax)) g t =
  bfold_up (fun g os x => f g os (pos_path x) (pos_here x)) g (bannotate p ab (btree_map fst t)).
Proof.
  induction t as [[a x] l r IHl IHr] using btree_ind'; intros p ab g (Hx & Hl & Hr); cbn [snd] in *.
  cbn [btree_map bannotate]; rewrite !bfold_up_node; cbn [fst snd pos_path pos_here]; rewrite Hx.
  assert (El : forall g, fold_side (bfold_up (fun g os ax => f g os (pos_path (snd ax)) (fst ax))) g l =
     fold_side (bfold_up (fun g os x => f g os (pos_path x) (pos_here x))) g (option_map (bannotate (p ++ [0]) (ab ++ [a])) (option_map (btree_map fst) l))).
  { intros g0; destruct l as [c|]; cbn in *; [rewrite (IHl _ (ab ++ [a]) g0 Hl)|]; reflexivity. }
  assert (Er : forall g, fold_side (bfold_up (fun g os ax => f g os (pos_path (snd ax)) (fst ax))) g r =
     fold_side (bfold_up (fun g os x => f g os (pos_path x) (pos_here x))) g (option_map (bannotate (p ++ [1]) (ab ++ [a])) (option_map (btree_map fst) r))).
  { intros g0; destruct r as [c|]; cbn in *; [rewrite (IHr _ (ab ++ [a]) g0 Hr)|]; reflexivity. }
  rewrite El; destruct (fold_side _ g _) as [g1 u]; rewrite Er; reflexivity.
Qed.

(** A walk that drops nothing keeps indexes. *)
Lemma walk_placed {Nd G A} (vis : G -> pos Nd -> G * outcome A) : (forall g x, snd (vis g x) <> Drop) ->
  forall t p ab g, exists g' t', walk (with_node vis) g (annotate p ab t) = (g', Some t') /\ placed p t'.
Proof.
  intros Hv; induction t as [v ts IH] using tree_ind'; intros p ab g; cbn [annotate]; rewrite walk_node.
  replace (with_node vis g (mkPos p ab v)) with (match vis g (mkPos p ab v) with (g', Drop) => (g', Drop) | (g', Keep a down) => (g', Keep (a, mkPos p ab v) down) end) by reflexivity.
  specialize (Hv g (mkPos p ab v)) as Hg; destruct (vis g (mkPos p ab v)) as [g1 [|a [|]]]; cbn in Hg; [congruence| |].
  - assert (E : forall i g, exists g' ts', walk_list (walk (with_node vis)) g (mapi (fun i c => annotate (p ++ [i]) (ab ++ [v]) c) i ts) = (g', ts') /\ placed_list p i ts').
    { clear g g1 Hg; induction IH as [|t ts Ht _ IHl]; intros i g; [exists g, []; split; [reflexivity|exact I]|].
      rewrite mapi_cons, walk_list_cons; destruct (Ht (p ++ [i]) (ab ++ [v]) g) as (g1 & t' & E1 & P1).
      destruct (IHl (S i) g1) as (g2 & ts' & E2 & P2); rewrite E1, E2; exists g2, (t' :: ts'); split; [reflexivity|split; assumption]. }
    destruct (E 0 g1) as (g' & ts' & E1 & P1); rewrite E1; exists g', (TNode (a, mkPos p ab v) ts'); split; [reflexivity|].
    apply placed_node; split; [reflexivity|exact P1].
  - eexists g1, _; split; [reflexivity|]; apply placed_node; split; [reflexivity|exact I].
Qed.

Lemma visit_no_drop {V A} (c : chain V A) : has_prune c = false -> forall gs p d v, snd (visit_node c gs p d v) <> Drop.
Proof.
  induction c as [|A B G c IH g f|A G c IH g f|A G c IH g f|A c IH lim]; intros Hn gs p d v; try discriminate Hn; cbn in *.
  - discriminate.
  - match goal with |- context [visit_node c ?x p d v] => specialize (IH Hn x p d v); destruct (visit_node c x p d v) as [g1 [|a dn]] end;
      cbn in *; [congruence|]; match goal with |- context [f ?x ?y] => destruct (f x y) end; cbn; discriminate.
  - specialize (IH Hn gs p d v); destruct (visit_node c gs p d v) as [g1 [|a dn]]; cbn in *; [congruence|discriminate].
Qed.
