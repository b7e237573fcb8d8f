(** * PipeBase: the path-tracking iterators perform the plain walk over the positions of the tree. *)
From Verif Require Import Prelim PrelimFacts Spec SpecFacts SpecPipe ModelNode NodeFacts ModelPre ModelPipe ProofsPlain Slots PipeCore.

(** A child index as it is stored in a [usize]. *)
Definition wrap (i : nat) : N := (N.of_nat i mod usize_mod)%N.
(** The stored segment when the next child is number [j]. *)
Definition seg_before (j : nat) : N := match j with 0 => usize_max | S i => wrap i end.

Lemma seg_succ j : wrapping_succ (seg_before j) = wrap j.
Proof.
  destruct j as [|i]; [reflexivity|]; cbn [seg_before]; unfold wrapping_succ, wrap.
  rewrite N.add_mod_idemp_l by discriminate; f_equal; lia.
Qed.

Lemma wrap_small i : (N.of_nat i <= usize_max)%N -> wrap i = N.of_nat i.
Proof. intros H; apply N.mod_small; unfold usize_mod, usize_max in *; lia. Qed.

Fixpoint first_some {A} (l : list (option A)) : option (nat * A * list (option A)) :=
  match l with
  | [] => None
  | Some a :: l' => Some (0, a, l')
  | None :: l' => match first_some l' with Some (k, a, r) => Some (S k, a, r) | None => None end
  end.

Lemma sforest_first {Nd} T p (ab : list Nd) l : forall j,
  sforest T p ab j l =
  match first_some l with
  | Some (k, n, l') => T (p ++ [j + k]) ab n :: sforest T p ab (S (j + k)) l'
  | None => []
  end.
Proof.
  induction l as [|[a|] l IH]; intros j; cbn; [reflexivity|rewrite Nat.add_0_r; reflexivity|].
  rewrite IH; destruct (first_some l) as [[[k a] r]|]; [|reflexivity].
  rewrite Nat.add_succ_r; reflexivity.
Qed.

Section Base.
  Context {Nd V I C : Type} (gv : Nd -> V * C) (into_iter : C -> list I) (sl : list I -> list (option Nd)).
  Variable body : nat -> list (list I) * list N -> Res (list (list I) * list N + option Nd * (list (list I) * list N)).
  Let slots (n : Nd) := sl (into_iter (snd (gv n))).
  Variable T : list nat -> list Nd -> Nd -> tree (pos Nd).
  Hypothesis HT : slot_law slots T.
  Hypothesis body_nil : forall f path, body f ([], path) = Ok (inr (None, ([], path))).
  Hypothesis body_scan : forall top,
    match first_some (sl top) with
    | None => forall f rest j path, body f (top :: rest, seg_before j :: path) = Ok (inl (rest, path))
    | Some (k, n, l') => exists top', sl top' = l' /\
        forall f rest j path, body f (top :: rest, seg_before j :: path) = Ok (inr (Some n, (top' :: rest, seg_before (S (j + k)) :: path)))
    end.
  Variable P0 : list nat.

  Record pframe := mkPf { pf_items : list I; pf_next : nat; pf_path : list nat; pf_above : list Nd }.
  Definition frest (fs : list pframe) : list (tree (pos Nd)) :=
    flat_map (fun f => sforest T (pf_path f) (pf_above f) (pf_next f) (sl (pf_items f))) fs.
  Fixpoint fvec (fs : list pframe) : list N :=
    match fs with [] => rev (map wrap P0) | f :: fs' => seg_before (pf_next f) :: fvec fs' end.
  Definition fcur (fs : list pframe) : list nat :=
    match fs with [] => P0 | f :: _ => pf_path f ++ [pred (pf_next f)] end.
  Definition entered (fs : list pframe) : Prop :=
    match fs with [] => True | f :: _ => 0 < pf_next f end.
  Fixpoint fok (fs : list pframe) : Prop :=
    match fs with [] => True | f :: fs' => pf_path f = fcur fs' /\ entered fs' /\ fok fs' end.

  Lemma fvec_cur fs : fok fs -> entered fs -> fvec fs = rev (map wrap (fcur fs)).
  Proof.
    induction fs as [|f fs IH]; intros Hok He; [reflexivity|].
    destruct Hok as (Ep & He' & Hok); cbn in He |- *.
    rewrite map_app, rev_app_distr; cbn; rewrite IH, Ep by assumption.
    destruct (pf_next f); [lia|reflexivity].
  Qed.

  Lemma base_loop fs : fok fs ->
    match frest fs with
    | [] => (fun f => loop body f (map pf_items fs, fvec fs)) ⇓ Ok (None, ([], rev (map wrap P0)))
    | TNode x ts :: r => exists fs',
        (fun f => loop body f (map pf_items fs, fvec fs)) ⇓ Ok (Some (pos_here x), (map pf_items fs', fvec fs')) /\
        fok fs' /\ entered fs' /\ fcur fs' = pos_path x /\ frest fs' = r /\
        ts = sforest T (pos_path x) (pos_above x ++ [pos_here x]) 0 (slots (pos_here x))
    end.
  Proof.
    induction fs as [|f fs IH]; intros Hok.
    - cbn; apply loop_done, conv_eq; intros g; apply body_nil.
    - destruct Hok as (Ep & He & Hok).
      cbn [frest flat_map]; rewrite sforest_first.
      pose proof (body_scan (pf_items f)) as Hs.
      destruct (first_some (sl (pf_items f))) as [[[k n] l']|].
      + destruct Hs as (top' & El & Hs).
        cbn [app]; rewrite HT.
        exists (mkPf top' (S (pf_next f + k)) (pf_path f) (pf_above f) :: fs); cbn [map pf_items pf_next pf_path pf_above pos_here pos_path pos_above].
        split; [|split; [|split; [|split; [|split]]]].
        * apply loop_done, conv_eq; intros g; cbn [map fvec]; apply Hs.
        * cbn; auto.
        * cbn; lia.
        * reflexivity.
        * cbn; rewrite El; reflexivity.
        * reflexivity.
      + cbn [app]; specialize (IH Hok); fold (frest fs).
        destruct (frest fs) as [|[x ts] r].
        * eapply loop_step; [|exact IH]; apply conv_eq; intros g; apply Hs.
        * destruct IH as (fs' & Hl & IH); exists fs'; split; [|exact IH].
          eapply loop_step; [|exact Hl]; apply conv_eq; intros g; apply Hs.
  Qed.

  Definition base_vis (g : unit) (x : pos Nd) : unit * outcome V := (g, Keep (nval gv (pos_here x)) true).
  Definition pok_exact (p : list N) (x : pos Nd) : Prop := p = map wrap (pos_path x).

  Definition base_R (s : ptrack Nd I C) (_ : unit) (d r : list (tree (pos Nd))) : Prop :=
    (exists n, s = mkPt (Some n) (rev (map wrap P0)) None [] /\ d = [] /\ r = [T P0 [] n]) \/
    (exists fs, pt_root s = None /\ pt_stack s = map pf_items fs /\ pt_path s = fvec fs /\ fok fs /\ entered fs /\ r = frest fs /\
      match pt_deck s with None => d = [] | Some c => exists ab, d = sforest T (fcur fs) ab 0 (sl (into_iter c)) end).

  Definition base_pipe (s0 : ptrack Nd I C) : pipe V :=
    mkPipe (ptrack Nd I C) s0 (pt_next_with gv into_iter body) pt_current_path pt_prune.

  Lemma base_sim s0 : simulates (base_pipe s0) base_vis pok_exact base_R.
  Proof.
    split.
    - intros s [] d r HR o d' r' g' E; cbn [p_next base_pipe p_path p_state] in *.
      destruct HR as [(n & -> & -> & ->)|(fs & Er & Es & Ep & Hok & He & -> & Hd)].
      + cbn [app] in E; rewrite HT in E; cbn in E; injection E as <- <- <- <-.
        exists (mkPt None (rev (map wrap P0)) (Some (snd (gv n))) []); split; [|split].
        * unfold pt_next_with; cbn; rewrite (gv_eq gv); now_conv.
        * right; exists []; cbn; repeat split; auto.
          exists [n]; reflexivity.
        * intros a x E; injection E as <- <-; unfold pok_exact, pt_current_path; cbn; rewrite rev_involutive; reflexivity.
      + destruct s as [sr sp sd st]; cbn in Er, Es, Ep, Hd; subst sr st sp.
        set (fs1 := match sd with Some c => mkPf (into_iter c) 0 (fcur fs) match sd with Some c => [] | None => [] end :: fs | None => fs end).
        assert (Hfs : exists fs2, fok fs2 /\ frest fs2 = d ++ frest fs /\ (map pf_items fs2, fvec fs2) =
                   match sd with Some c => (into_iter c :: map pf_items fs, usize_max :: fvec fs) | None => (map pf_items fs, fvec fs) end).
        { destruct sd as [c|].
          - destruct Hd as (ab & ->); exists (mkPf (into_iter c) 0 (fcur fs) ab :: fs); repeat split; auto.
          - subst d; exists fs; repeat split; auto. }
        clear fs1; destruct Hfs as (fs2 & Hok2 & Er2 & E2).
        unfold pt_next_with; cbn [pt_root pt_deck pt_stack pt_path].
        pose proof (base_loop fs2 Hok2) as Hl; rewrite Er2 in Hl; rewrite E2 in Hl.
        destruct (d ++ frest fs) as [|[x ts] r].
        * cbn in E; injection E as <- <- <- <-.
          exists (mkPt None (rev (map wrap P0)) None []); split; [|split].
          -- destruct sd; (eapply conv_bind; [exact Hl|now_conv]).
          -- right; exists []; cbn; repeat split; auto.
          -- intros; discriminate.
        * destruct Hl as (fs' & Hl & Hok' & He' & Ec & <- & ->).
          cbn in E; injection E as <- <- <- <-.
          exists (mkPt None (fvec fs') (Some (snd (gv (pos_here x)))) (map pf_items fs')); split; [|split].
          -- destruct sd; (eapply conv_bind; [exact Hl|]; cbn; rewrite (gv_eq gv); now_conv).
          -- right; exists fs'; cbn; repeat split; auto.
             eexists; rewrite Ec; reflexivity.
          -- intros a y E; injection E as <- <-; unfold pok_exact, pt_current_path; cbn.
             rewrite (fvec_cur fs' Hok' He'), rev_involutive, Ec; reflexivity.
    - intros s [] d r HR; cbn [p_prune base_pipe].
      destruct HR as [(n & -> & -> & ->)|(fs & Er & Es & Ep & Hok & He & -> & Hd)].
      + left; exists n; auto.
      + right; exists fs; destruct s; cbn in *; repeat split; auto.
    - intros s; reflexivity.
  Qed.

  Lemma base_R_init n : base_R (pt_new n (map wrap P0)) tt [] [T P0 [] n].
  Proof. left; exists n; auto. Qed.
End Base.

(** ** The two instances *)
Lemma nary_scan {Nd} (top : list Nd) :
  match first_some (map Some top) with
  | None => forall f rest j path, pt_body f (top :: rest, seg_before j :: path) = Ok (inl (rest, path))
  | Some (k, n, l') => exists top', map Some top' = l' /\
      forall f rest j path, pt_body f (top :: rest, seg_before j :: path) = Ok (inr (Some n, (top' :: rest, seg_before (S (j + k)) :: path)))
  end.
Proof.
  destruct top as [|n top]; cbn; [intros; reflexivity|].
  exists top; split; [reflexivity|]; intros f rest j path.
  rewrite seg_succ, Nat.add_0_r; reflexivity.
Qed.

Lemma binary_scan {Nd} (top : list (option Nd)) :
  match first_some top with
  | None => forall f rest j path, ptb_body f (top :: rest, seg_before j :: path) = Ok (inl (rest, path))
  | Some (k, n, l') => exists top', top' = l' /\
      forall f rest j path, ptb_body f (top :: rest, seg_before j :: path) = Ok (inr (Some n, (top' :: rest, seg_before (S (j + k)) :: path)))
  end.
Proof.
  assert (Hscan : match first_some top with
    | None => forall j path, exists x, prec_scan top (seg_before j :: path) = Ok (None, [], x :: path)
    | Some (k, n, l') => forall j path, prec_scan top (seg_before j :: path) = Ok (Some n, l', seg_before (S (j + k)) :: path)
    end).
  { induction top as [|[n|] top IH]; cbn [first_some].
    - intros j path; eexists; reflexivity.
    - intros j path; cbn; rewrite seg_succ, Nat.add_0_r; reflexivity.
    - destruct (first_some top) as [[[k n] l']|]; intros j path; cbn; rewrite seg_succ.
      + rewrite Nat.add_succ_r; apply (IH (S j)).
      + apply (IH (S j)). }
  destruct (first_some top) as [[[k n] l']|].
  - exists l'; split; [reflexivity|]; intros f rest j path; unfold ptb_body; rewrite Hscan; reflexivity.
  - intros f rest j path; destruct (Hscan j path) as (x & E); unfold ptb_body; rewrite E; reflexivity.
Qed.

Section Instances.
  Context {Nd V : Type}.

  Lemma nary_sim (gvc : Nd -> V * list Nd) (nt : Nd -> tree Nd) (P0 : list nat) s0 : node_tree gvc nt ->
    simulates (base_pipe gvc (fun l => l) pt_body s0) (base_vis gvc) pok_exact
      (base_R (fun l => l) (map Some) (fun p ab n => annotate p ab (nt n)) P0).
  Proof.
    intros H; apply base_sim.
    - apply (slot_law_nary gvc nt H).
    - reflexivity.
    - apply nary_scan.
  Qed.

  Lemma binary_sim (gvcb : Nd -> V * (option Nd * option Nd)) (bt : Nd -> btree Nd) (P0 : list nat) s0 : node_btree gvcb bt ->
    simulates (base_pipe gvcb pair_iter ptb_body s0) (base_vis gvcb) pok_exact
      (base_R pair_iter (fun l => l) (fun p ab n => flat (bannotate p ab (bt n))) P0).
  Proof.
    intros H; apply base_sim.
    - apply (slot_law_binary gvcb bt H).
    - reflexivity.
    - apply binary_scan.
  Qed.
End Instances.
