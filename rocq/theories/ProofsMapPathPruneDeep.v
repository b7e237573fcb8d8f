(** * ProofsMapPathPruneDeep: how deep a tree may be for map_path behind an n-ary prune. *)
From Verif Require Import Prelim PrelimFacts Spec SpecFacts SpecPipe SpecDrift SpecMapPath SpecMapPathPrune SpecObs ModelNode NodeFacts ModelPre ModelPipe ModelMapPath
  ModelMapPathPrune ProofsPlain Slots PipeCore PipeBase PipeChain PipeEnd ProofsPipe PipeFinal PipeExact ProofsExact ProofsMapPath ProofsMapPathEnd ProofsMapPathChain
  ProofsMapPathPrune ProofsMapPathPruneSim ProofsMapPathPruneUb ProofsMapPathPruneEnd ProofsMapPathPruneFinal.

Lemma pushes_fit grow k : forall len room buffer, len + k <= room -> pushes grow k len room buffer = (room, buffer).
Proof.
  induction k as [|k IH]; intros len room buffer Hl; cbn [pushes]; [reflexivity|].
  rewrite (proj2 (Nat.ltb_lt len room)) by lia; apply IH; lia.
Qed.
Lemma pushes_move grow k : forall len room buffer, len <= room -> room < len + k -> buffer < snd (pushes grow k len room buffer).
Proof.
  induction k as [|k IH]; intros len room buffer Hl Hk; [lia|]; cbn [pushes].
  destruct (Nat.ltb_spec len room); [apply IH; lia|]; pose proof (pushes_mono grow k (S len) (grow room) (S buffer)); lia.
Qed.

(** [t] does not reach below depth [m], if its root is at depth [k]. *)
Fixpoint fits {A} (m k : nat) (t : tree A) : Prop :=
  match t with
  | TNode _ ts => k <= m /\ (fix all l := match l with [] => True | t :: l' => fits m (S k) t /\ all l' end) ts
  end.
Lemma fits_node {A} m k (a : A) ts : fits m k (TNode a ts) <-> k <= m /\ Forall (fits m (S k)) ts.
Proof.
  cbn; split; intros [H1 H2]; (split; [exact H1|]).
  - induction ts as [|t ts IH]; constructor; [tauto|apply IH; tauto].
  - induction H2; auto.
Qed.
Lemma fits_annotate {A} m (t : tree A) : forall p ab, fits m (length p) t <-> Forall (fun x => length (pos_path x) <= m) (preorder (annotate p ab t)).
Proof.
  induction t as [v ts IH] using tree_ind'; intros p ab; rewrite fits_node; cbn [annotate preorder]; rewrite Forall_cons_iff; cbn [pos_path].
  enough (E : Forall (fits m (S (length p))) ts <-> Forall (fun x => length (pos_path x) <= m) (flat_map preorder (mapi (fun i => annotate (p ++ [i]) (ab ++ [v])) 0 ts))) by (rewrite E; reflexivity).
  generalize 0 as i; induction IH as [|t ts Ht _ IHl]; intros i; [cbn; split; constructor|].
  rewrite mapi_cons; cbn [flat_map]; rewrite Forall_app, Forall_cons_iff, <- IHl, <- Ht, app_length, Nat.add_1_r; reflexivity.
Qed.
Lemma fits_paths {A} m (t : tree A) : fits m 0 t <-> Forall (fun p => length p <= m) (node_paths t).
Proof. unfold node_paths, positions; rewrite Forall_map; apply (fits_annotate m t [] []). Qed.
Lemma fits_deep {A} m (t : tree A) : forall p ab, fits m (length p) t -> Forall (fun x => length (pos_path x) <= m) (preorder (annotate p ab t)).
Proof. intros p ab; apply fits_annotate. Qed.

Section Deep.
  Variable grow : nat -> nat.
  Hypothesis Hgrow : forall c, c < grow c.

  (** The pointer is good: the vector has no buffer yet or its first one. *)
  Definition first_buffer (v : list N) (p : pointer) : Prop :=
    length v <= room p /\ (buffer p = 0 /\ room p = 0 \/ buffer p = 1 /\ room p = grow 0) /\ taken p <= buffer p /\
    (taken p <> buffer p -> shown p = []) /\ (buffer p = 0 -> shown p = []).
  Definition lost (p : pointer) : Prop := shown p <> [] /\ taken p < buffer p.

  Lemma lost_dangling p : lost p -> dangling p = true.
  Proof.
    intros [H1 H2]; unfold dangling; destruct (shown p); [congruence|]; cbn [length Nat.ltb Nat.leb andb].
    rewrite (proj2 (Nat.eqb_neq _ _)) by lia; reflexivity.
  Qed.
  Lemma first_good v p : first_buffer v p -> dangling p = false.
  Proof.
    intros (_ & _ & _ & H & _); unfold dangling; destruct (Nat.eqb_spec (taken p) (buffer p)) as [E|E]; [apply andb_false_r|rewrite H by exact E; reflexivity].
  Qed.
  Lemma lost_after v d p : lost p -> lost (pointer_after grow v d p).
  Proof.
    intros [H1 H2]; pose proof (pointer_after_shape grow v d p) as [E1 E2]; split.
    - intros E; rewrite E in E1; destruct (shown p); [congruence|discriminate].
    - rewrite E2; unfold pointer_after; pose proof (pushes_mono grow (length d - length v) (length v) (room p) (buffer p)) as Hm.
      destruct (pushes grow (length d - length v) (length v) (room p) (buffer p)); cbn [buffer snd] in *; lia.
  Qed.
  Lemma first_after v d p : first_buffer v p -> length d <= S (length (shown p)) ->
    if length d <=? grow 0 then first_buffer d (pointer_after grow v d p) else lost (pointer_after grow v d p).
  Proof.
    intros (H1 & H2 & H3 & H4 & H5) Hd; pose proof (pointer_after_shape grow v d p) as [E1 E2]; pose proof (Hgrow 0) as Hg.
    assert (Hnil : shown p = [] -> shown (pointer_after grow v d p) = []) by (intros E; rewrite E in E1; destruct (shown (pointer_after grow v d p)); [reflexivity|discriminate]).
    assert (Eb : room (pointer_after grow v d p) = fst (pushes grow (length d - length v) (length v) (room p) (buffer p)) /\
                 buffer (pointer_after grow v d p) = snd (pushes grow (length d - length v) (length v) (room p) (buffer p))).
    { unfold pointer_after; destruct (pushes grow (length d - length v) (length v) (room p) (buffer p)); split; reflexivity. }
    destruct Eb as [Er Eb]; destruct (Nat.leb_spec (length d) (grow 0)) as [Hl|Hl].
    - unfold first_buffer; rewrite Er, Eb, E2; destruct H2 as [[B R]|[B R]]; rewrite B, R in *.
      + assert (length v = 0) by lia; rewrite H, Nat.sub_0_r; destruct (length d) as [|k] eqn:Ed; cbn [pushes Nat.ltb Nat.leb fst snd].
        * repeat split; auto; lia.
        * rewrite pushes_fit by lia; cbn [fst snd]; repeat split; try lia; auto.
      + rewrite pushes_fit by lia; cbn [fst snd]; repeat split; try lia; auto; intros; discriminate.
    - unfold lost; rewrite Eb, E2; destruct H2 as [[B R]|[B R]]; rewrite B, R in *.
      + rewrite (H5 eq_refl) in Hd; cbn in Hd; lia.
      + split; [intros E; rewrite E in E1; cbn in E1; lia|].
        pose proof (pushes_move grow (length d - length v) (length v) (grow 0) 1 ltac:(lia) ltac:(lia)); lia.
  Qed.
  Lemma first_same v p : first_buffer v p -> first_buffer v (pointer_after grow v v p).
  Proof.
    intros (H1 & H2 & H3 & H4 & H5); pose proof (pointer_after_shape grow v v p) as [E1 E2].
    assert (Hnil : shown p = [] -> shown (pointer_after grow v v p) = []) by (intros E; rewrite E in E1; destruct (shown (pointer_after grow v v p)); [reflexivity|discriminate]).
    unfold first_buffer; rewrite E2; unfold pointer_after in *; rewrite Nat.sub_diag in *; cbn [pushes room buffer shown] in *; repeat split; auto.
  Qed.
  Lemma first_retaken v p : first_buffer v p -> first_buffer v (mkPointer v (buffer p) (room p) (buffer p)).
  Proof.
    intros (H1 & H2 & H3 & H4 & H5); unfold first_buffer; cbn; repeat split; auto; try congruence.
    intros E; destruct H2 as [[B R]|[B R]]; [|congruence]; rewrite R in H1; destruct v; [reflexivity|cbn in H1; lia].
  Qed.

  Section Walk.
    Context {Nd V A B D G : Type} (c1 : chain V A) (visit : dclos c1 -> pos Nd -> dclos c1 * outcome A) (depth : list N -> nat)
      (f : G -> list N -> A -> G * B) (c2 : chain B D).
    Hypothesis Hcursor : forall gs x, let '(gs', o) := visit gs x in
      match o with
      | Drop => reported c1 gs' [] = reported c1 gs [] \/ reported c1 gs' [] = drift (length (pos_path x)) (reported c1 gs [])
      | Keep _ _ => reported c1 gs' [] = drift (length (pos_path x)) (reported c1 gs [])
      end.
    Notation vis := (after_prunes_by grow c1 visit depth f c2).
    Notation len := (fun x : pos Nd => length (map wrap (pos_path x))).

    Definition holds (s : dclos c1 * pointer * G * dclos c2 * bool) : Prop :=
      let '(gs1, p, _, _, freed) := s in freed = true \/ lost p \/ first_buffer (reported c1 gs1 []) p.
    Definition reach (s : dclos c1 * pointer * G * dclos c2 * bool) : nat := let '(_, p, _, _, _) := s in length (shown p).
    Definition fails (s : dclos c1 * pointer * G * dclos c2 * bool) : bool := snd s.

    Lemma visit_holds s x : holds s -> len x <= S (reach s) ->
      let '(s', o) := vis s x in
      holds s' /\ match o with Drop => len x <= S (reach s') | Keep _ _ => reach s' = len x /\ (fails s' = true \/ len x <= grow 0) end.
    Proof.
      destruct s as [[[[gs1 p] g] gs2] freed]; cbn [holds reach fails]; rewrite map_length; intros Hs Hl.
      unfold after_prunes_by.
      pose proof (Hcursor gs1 x) as Hc; destruct (visit gs1 x) as [gs1' o1].
      pose proof (pointer_after_shape grow (reported c1 gs1 []) (reported c1 gs1' []) p) as [E1 E2].
      set (p' := pointer_after grow (reported c1 gs1 []) (reported c1 gs1' []) p) in *.
      destruct o1 as [|a dn].
      - cbn [holds reach]; rewrite E1; split; [|exact Hl].
        destruct Hs as [Hs|[Hs|Hs]]; [left; exact Hs|right; left; apply lost_after; exact Hs|right].
        destruct Hc as [Hc|Hc]; [unfold p'; rewrite Hc; right; apply first_same; exact Hs|].
        pose proof (first_after _ (reported c1 gs1' []) _ Hs) as Hf; rewrite Hc, drift_length, <- Hc in Hf; specialize (Hf Hl).
        destruct (length (pos_path x) <=? grow 0); auto.
      - destruct (f g (shown p') a) as [g' b]; destruct (dvisit c2 gs2 (reported c1 gs1' []) (N.of_nat (depth (reported c1 gs1' []))) b) as [gs2' r2].
        assert (Hl' : length (reported c1 gs1' []) = length (pos_path x)) by (rewrite Hc; apply drift_length).
        assert (Hk : holds (gs1', mkPointer (reported c1 gs1' []) (buffer p') (room p') (buffer p'), g', gs2', freed || dangling p') /\
          (freed || dangling p' = true \/ length (pos_path x) <= grow 0)).
        { cbn [holds]; destruct Hs as [Hs|[Hs|Hs]].
          - rewrite Hs; auto.
          - rewrite (lost_dangling p') by (apply lost_after; exact Hs); rewrite orb_true_r; auto.
          - pose proof (first_after _ (reported c1 gs1' []) _ Hs) as Hf; rewrite Hl' in Hf; specialize (Hf Hl).
            destruct (Nat.leb_spec (length (pos_path x)) (grow 0)); [split; [right; right; apply first_retaken; exact Hf|right; assumption]|].
            rewrite (lost_dangling p') by exact Hf; rewrite orb_true_r; auto. }
        destruct Hk as [Hk1 Hk2]; destruct r2 as [|d dn']; (split; [exact Hk1|]); cbn [reach shown fails snd]; [rewrite Hl'; lia|split; [exact Hl'|exact Hk2]].
    Qed.

    Lemma after_mono s x : fails s = true -> fails (fst (vis s x)) = true.
    Proof.
      destruct s as [[[[gs1 p] g] gs2] freed]; cbn [fails snd]; intros ->; unfold after_prunes_by.
      destruct (visit gs1 x) as [gs1' [|a dn]]; [reflexivity|].
      destruct (f g _ a) as [g' b]; destruct (dvisit c2 gs2 _ _ b) as [gs2' r2]; reflexivity.
    Qed.

    Lemma walk_holds t : forall k s, deep len k t -> holds s -> k <= S (reach s) ->
      let '(s', o) := walk vis s t in
      holds s' /\ k <= S (reach s') /\ (fails s' = true \/ match o with Some t' => fits (grow 0) k t' | None => True end).
    Proof.
      induction t as [x ts IH] using tree_ind'; intros k s Hd Hs Hk; apply deep_node in Hd as [Hx Hd]; rewrite walk_node.
      pose proof (visit_holds s x Hs) as Hv; cbv beta in Hv, Hx; rewrite Hx in Hv; specialize (Hv Hk).
      destruct (vis s x) as [s1 [|d dn]]; destruct Hv as [Hs1 Hv]; [auto|]; destruct Hv as [Hr Hv]; rewrite <- Hr in Hx.
      assert (Hkids : forall ts', Forall (fun t => forall k s, deep len k t -> holds s -> k <= S (reach s) ->
          let '(s', o) := walk vis s t in
          holds s' /\ k <= S (reach s') /\ (fails s' = true \/ match o with Some t' => fits (grow 0) k t' | None => True end)) ts' ->
        forall k s, Forall (deep len k) ts' -> holds s -> k <= S (reach s) ->
        let '(s', os) := walk_list (walk vis) s ts' in
        holds s' /\ k <= S (reach s') /\ (fails s' = true \/ Forall (fits (grow 0) k) os)).
      { clear - Hgrow; intros ts' Hf; induction Hf as [|t ts' Ht _ IHl]; intros k s Hd Hs Hk; [rewrite walk_list_nil; auto|].
        inversion Hd as [|? ? Hd1 Hd2]; subst; rewrite walk_list_cons; specialize (Ht k s Hd1 Hs Hk).
        destruct (walk vis s t) as [s1 o]; destruct Ht as (Hs1 & Hk1 & Ho); specialize (IHl k s1 Hd2 Hs1 Hk1).
        pose proof (walk_list_mono vis fails after_mono ts' s1) as Hm.
        destruct (walk_list (walk vis) s1 ts') as [s2 os]; destruct IHl as (Hs2 & Hk2 & Hos); split; [exact Hs2|]; split; [exact Hk2|].
        destruct Ho as [Ho|Ho]; [left; apply Hm; exact Ho|]; destruct Hos as [Hos|Hos]; [left; exact Hos|right].
        destruct o; cbn; [constructor; assumption|exact Hos]. }
      destruct dn.
      - specialize (Hkids ts IH (S k) s1 Hd Hs1 ltac:(lia)).
        pose proof (walk_list_mono vis fails after_mono ts s1) as Hm.
        destruct (walk_list (walk vis) s1 ts) as [s2 os]; destruct Hkids as (Hs2 & Hk2 & Hos); split; [exact Hs2|]; split; [lia|].
        destruct Hv as [Hv|Hv]; [left; apply Hm; exact Hv|]; destruct Hos as [Hos|Hos]; [left; exact Hos|right]; apply fits_node; split; [lia|exact Hos].
      - split; [exact Hs1|]; split; [lia|]; destruct Hv as [Hv|Hv]; [left; exact Hv|right]; apply fits_node; split; [lia|constructor].
    Qed.

    (** Trees that fit never lose the pointer. *)
    Definition safe (s : dclos c1 * pointer * G * dclos c2 * bool) : Prop :=
      let '(gs1, p, _, _, freed) := s in freed = false /\ first_buffer (reported c1 gs1 []) p.

    Lemma visit_safe s x : safe s -> len x <= grow 0 -> len x <= S (reach s) ->
      let '(s', o) := vis s x in
      safe s' /\ match o with Drop => len x <= S (reach s') | Keep _ _ => reach s' = len x end.
    Proof.
      destruct s as [[[[gs1 p] g] gs2] freed]; cbn [safe reach fails]; rewrite map_length; intros [-> Hs] Hx Hl.
      unfold after_prunes_by.
      pose proof (Hcursor gs1 x) as Hc; destruct (visit gs1 x) as [gs1' o1].
      pose proof (pointer_after_shape grow (reported c1 gs1 []) (reported c1 gs1' []) p) as [E1 E2].
      set (p' := pointer_after grow (reported c1 gs1 []) (reported c1 gs1' []) p) in *.
      assert (Hf : length (reported c1 gs1' []) = length (pos_path x) -> first_buffer (reported c1 gs1' []) p').
      { intros E; pose proof (first_after _ (reported c1 gs1' []) _ Hs) as Hf; rewrite E in Hf; specialize (Hf Hl).
        rewrite (proj2 (Nat.leb_le _ _) Hx) in Hf; exact Hf. }
      destruct o1 as [|a dn].
      - cbn [safe reach]; rewrite E1; split; [|exact Hl]; split; [reflexivity|].
        destruct Hc as [Hc|Hc]; [unfold p'; rewrite Hc; apply first_same; exact Hs|]; apply Hf; rewrite Hc; apply drift_length.
      - destruct (f g (shown p') a) as [g' b]; destruct (dvisit c2 gs2 (reported c1 gs1' []) (N.of_nat (depth (reported c1 gs1' []))) b) as [gs2' r2].
        assert (Hl' : length (reported c1 gs1' []) = length (pos_path x)) by (rewrite Hc; apply drift_length).
        specialize (Hf Hl'); cbn [safe]; rewrite (first_good _ _ Hf).
        destruct r2 as [|d dn']; (split; [split; [reflexivity|apply first_retaken; exact Hf]|]); cbn [reach shown]; lia.
    Qed.

    Lemma walk_safe t : forall k s, deep len k t -> Forall (fun x => length (pos_path x) <= grow 0) (preorder t) -> safe s -> k <= S (reach s) ->
      let '(s', o) := walk vis s t in safe s' /\ k <= S (reach s').
    Proof.
      induction t as [x ts IH] using tree_ind'; intros k s Hd Hg Hs Hk; apply deep_node in Hd as [Hx Hd]; rewrite walk_node.
      cbn [preorder] in Hg; inversion Hg as [|? ? Hg1 Hg2]; subst.
      pose proof (visit_safe s x Hs ltac:(cbv beta; rewrite map_length; exact Hg1) Hk) as Hv.
      destruct (vis s x) as [s1 [|d dn]]; destruct Hv as [Hs1 Hv]; [auto|].
      destruct dn; [|split; [exact Hs1|lia]].
      assert (Hkids : forall ts', Forall (fun t => forall k s, deep len k t -> Forall (fun x => length (pos_path x) <= grow 0) (preorder t) -> safe s -> k <= S (reach s) ->
          let '(s', o) := walk vis s t in safe s' /\ k <= S (reach s')) ts' ->
        forall k s, Forall (deep len k) ts' -> Forall (fun x => length (pos_path x) <= grow 0) (flat_map preorder ts') -> safe s -> k <= S (reach s) ->
        let '(s', os) := walk_list (walk vis) s ts' in safe s' /\ k <= S (reach s')).
      { clear; intros ts' Hf; induction Hf as [|t ts' Ht _ IHl]; intros k s Hd Hg Hs Hk; [rewrite walk_list_nil; auto|].
        inversion Hd as [|? ? Hd1 Hd2]; subst; cbn [flat_map] in Hg; apply Forall_app in Hg as [Hg1 Hg2]; rewrite walk_list_cons; specialize (Ht k s Hd1 Hg1 Hs Hk).
        destruct (walk vis s t) as [s1 o]; destruct Ht as (Hs1 & Hk1); specialize (IHl k s1 Hd2 Hg2 Hs1 Hk1).
        destruct (walk_list (walk vis) s1 ts') as [s2 os]; exact IHl. }
      specialize (Hkids ts IH (S (len x)) s1 Hd Hg2 Hs1 ltac:(cbv beta in Hv; lia)).
      destruct (walk_list (walk vis) s1 ts) as [s2 os]; destruct Hkids; split; [assumption|lia].
    Qed.
  End Walk.

  Section Ops.
    Context {Nd V A B D G : Type} (gvc : Nd -> V * list Nd) (nt : Nd -> tree Nd).
    Hypothesis H : node_tree gvc nt.
    Context (c1 : chain V A) (f : G -> list N -> A -> G * B) (c2 : chain B D).
    Hypothesis Hp : has_prune c1 = true.

    Lemma start_reported {V' A'} (c : chain V' A') : reported c (dclos_init [] c) [] = [].
    Proof. induction c; cbn; auto. Qed.
    Lemma start_first : first_buffer (reported c1 (dclos_init [] c1) []) no_pointer.
    Proof. rewrite start_reported; unfold first_buffer; cbn; repeat split; auto. Qed.

    Lemma exact_cursor gs (x : pos Nd) : let '(gs', o) := at_node_exact (nval gvc) c1 gs x in
      match o with
      | Drop => reported c1 gs' [] = reported c1 gs [] \/ reported c1 gs' [] = drift (length (pos_path x)) (reported c1 gs [])
      | Keep _ _ => reported c1 gs' [] = drift (length (pos_path x)) (reported c1 gs [])
      end.
    Proof.
      pose proof (dvisit_cursor c1 Hp gs (map N.of_nat (pos_path x)) (N.of_nat (length (pos_path x))) (nval gvc (pos_here x)) []) as Hc; rewrite map_length in Hc; exact Hc.
    Qed.

    Lemma behind_prune_shallow n g : (N.of_nat (length (preorder (nt n))) <= usize_max)%N -> Forall (fun p => length p <= grow 0) (node_paths (nt n)) ->
      exists o s, collect_tree (tree_chain (map_path_after grow gvc n c1 f g) c2) ⇓ Ok (o, s).
    Proof.
      intros Hb Hd; pose proof (behind_prune grow Hgrow gvc nt H c1 f c2 Hp n g Hb) as Hr.
      pose proof (walk_safe c1 (at_node_exact (nval gvc) c1) (@length N) f c2 exact_cursor (positions (nt n)) 0 (dclos_init [] c1, no_pointer, g, dclos_init [] c2, false) (annotate_deep (nt n) [] [])) as Hw; fold (@after_prunes Nd V A B D G grow (nval gvc) c1 f c2) in Hw.
      destruct (walk (after_prunes grow (nval gvc) c1 f c2) _ (positions (nt n))) as [[[[[gs1 p] g'] gs2] freed] o].
      destruct Hw as [[-> _] _].
      - unfold node_paths in Hd; rewrite Forall_map in Hd; exact Hd.
      - split; [reflexivity|apply start_first].
      - lia.
      - destruct Hr as (s & Hc & _); eauto.
    Qed.

    Lemma behind_prune_deep n g t s : (N.of_nat (length (preorder (nt n))) <= usize_max)%N ->
      collect_tree (tree_chain (map_path_after grow gvc n c1 f g) c2) ⇓ Ok (Some t, s) -> Forall (fun p => length p <= grow 0) (node_paths t).
    Proof.
      intros Hb Ht; pose proof (behind_prune grow Hgrow gvc nt H c1 f c2 Hp n g Hb) as Hr.
      pose proof (walk_holds c1 (at_node_exact (nval gvc) c1) (@length N) f c2 exact_cursor (positions (nt n)) 0 (dclos_init [] c1, no_pointer, g, dclos_init [] c2, false) (annotate_deep (nt n) [] [])) as Hw; fold (@after_prunes Nd V A B D G grow (nval gvc) c1 f c2) in Hw.
      destruct (walk (after_prunes grow (nval gvc) c1 f c2) _ (positions (nt n))) as [[[[[gs1 p] g'] gs2] freed] o].
      destruct Hw as (_ & _ & Hw); [right; right; apply start_first|lia|]; cbn [fails snd] in Hw.
      destruct freed; [pose proof (conv_fun _ _ _ Ht Hr); discriminate|].
      destruct Hr as (s' & Hc & _); pose proof (conv_fun _ _ _ Ht Hc) as E; injection E as <- <-.
      destruct Hw as [Hw|Hw]; [discriminate|]; apply fits_paths; exact Hw.
    Qed.
  End Ops.
End Deep.
