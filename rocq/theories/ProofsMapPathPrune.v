(** * ProofsMapPathPrune: the path vector of a prune stage, and the pointer of map_path into it. *)
From Verif Require Import Prelim PrelimFacts Spec SpecFacts SpecPipe SpecDrift SpecMapPathPrune SpecObs ModelNode NodeFacts ModelPre ModelPipe ModelMapPath
  ModelMapPathPrune ProofsPlain Slots PipeCore PipeBase PipeChain PipeEnd ProofsPipe PipeFinal PipeExact ProofsExact ProofsMapPath ProofsMapPathEnd ProofsMapPathChain.

(** ** The vector *)
Definition vec_wf (v : vec) : Prop := v_len v <= length (v_buf v) /\ v_len v <= v_cap v.

Lemma vec_list_len v : vec_wf v -> length (vec_list v) = v_len v.
Proof. intros [H _]; unfold vec_list; rewrite firstn_length; lia. Qed.

Lemma vec_push_facts grow v x : (forall c, c < grow c) -> vec_wf v ->
  let v' := vec_push grow v x in
  vec_wf v' /\ vec_list v' = vec_list v ++ [x] /\
  (v_cap v', v_id v') = (if v_len v <? v_cap v then (v_cap v, v_id v) else (grow (v_cap v), S (v_id v))) /\
  (v_id v' = v_id v -> v_buf v' = vec_list v' ++ skipn (v_len v') (v_buf v)).
Proof.
  intros Hg [H1 H2]; unfold vec_push; pose proof (Hg (v_cap v)) as Hg1.
  assert (El : length (vec_list v) = v_len v) by (unfold vec_list; rewrite firstn_length; lia).
  destruct (Nat.ltb_spec (v_len v) (v_cap v)) as [Hl|Hl]; cbn [v_len v_cap v_id v_buf].
  - assert (E : vec_list (mkVec (firstn (v_len v) (v_buf v) ++ x :: skipn (S (v_len v)) (v_buf v)) (S (v_len v)) (v_cap v) (v_id v)) = vec_list v ++ [x]).
    { unfold vec_list at 1; cbn [v_len v_buf]; fold (vec_list v).
      rewrite firstn_app, firstn_all2 by lia; rewrite El; replace (S (v_len v) - v_len v) with 1 by lia; reflexivity. }
    rewrite E; split; [|split; [reflexivity|split; [reflexivity|]]].
    + split; cbn [v_len v_buf v_cap]; [|lia]; fold (vec_list v); rewrite app_length; cbn; lia.
    + intros _; fold (vec_list v); rewrite <- app_assoc; reflexivity.
  - assert (E : vec_list (mkVec (vec_list v ++ [x]) (S (v_len v)) (grow (v_cap v)) (S (v_id v))) = vec_list v ++ [x]).
    { unfold vec_list at 1; cbn [v_len v_buf]; apply firstn_all2; rewrite app_length; cbn; lia. }
    rewrite E; split; [|split; [reflexivity|split; [reflexivity|lia]]].
    split; cbn [v_len v_buf v_cap]; [rewrite app_length; cbn; lia|lia].
Qed.

Lemma pushes_mono grow k : forall len room buffer, buffer <= snd (pushes grow k len room buffer).
Proof. induction k as [|k IH]; intros len room buffer; cbn [pushes]; [cbn; lia|]; destruct (len <? room); [apply IH|]; specialize (IH (S len) (grow room) (S buffer)); lia. Qed.

Lemma skipn_skipn' {X} (a b : nat) (l : list X) : skipn a (skipn b l) = skipn (b + a) l.
Proof. revert l; induction b as [|b IH]; intros l; [reflexivity|]; destruct l; cbn; [apply skipn_nil|apply IH]. Qed.

Lemma vec_push_zeros_facts grow k : (forall c, c < grow c) -> forall v, vec_wf v ->
  let v' := vec_push_zeros grow k v in
  vec_wf v' /\ vec_list v' = vec_list v ++ repeat 0%N k /\ (v_cap v', v_id v') = pushes grow k (v_len v) (v_cap v) (v_id v) /\
  (v_id v' = v_id v -> v_buf v' = vec_list v' ++ skipn (v_len v') (v_buf v)).
Proof.
  intros Hg; induction k as [|k IH]; intros v Hw; cbn [vec_push_zeros pushes repeat].
  - split; [exact Hw|]; split; [rewrite app_nil_r; reflexivity|]; split; [reflexivity|]; intros _; unfold vec_list; rewrite firstn_skipn; reflexivity.
  - destruct (vec_push_facts grow v 0%N Hg Hw) as (H1 & H2 & H3 & H4).
    pose proof (vec_list_len _ Hw) as E0; pose proof (vec_list_len _ H1) as E1; rewrite H2, app_length, E0 in E1; cbn in E1.
    destruct (IH _ H1) as (I1 & I2 & I3 & I4); split; [exact I1|]; split; [|split].
    + rewrite I2, H2, <- app_assoc; reflexivity.
    + rewrite I3; rewrite <- E1, Nat.add_1_r; destruct (v_len v <? v_cap v); injection H3 as -> ->; reflexivity.
    + intros Eid; pose proof (f_equal snd I3) as Es; cbn [snd] in Es; pose proof (pushes_mono grow k (v_len (vec_push grow v 0%N)) (v_cap (vec_push grow v 0%N)) (v_id (vec_push grow v 0%N))) as Hm.
      rewrite <- Es in Hm.
      assert (E2 : v_id (vec_push grow v 0%N) = v_id v) by (destruct (v_len v <? v_cap v); injection H3 as _ E3; rewrite E3 in *; lia).
      pose proof (vec_list_len _ I1) as E3; rewrite I2, app_length, repeat_length in E3; rewrite (vec_list_len _ H1) in E3.
      rewrite I4 by lia; f_equal; rewrite H4 by exact E2.
      rewrite skipn_app, (vec_list_len _ H1), (skipn_all2 (vec_list _)) by (rewrite (vec_list_len _ H1); lia).
      cbn [app]; rewrite skipn_skipn'; f_equal; lia.
Qed.

(** Bringing the vector to a length. *)
Lemma bump_last_app k (l : list N) x : length l = k -> bump_last (l ++ [x]) = l ++ [(x + 1)%N].
Proof.
  revert k; induction l as [|y l IH]; intros k E; [reflexivity|].
  cbn [app]; change (bump_last (y :: l ++ [x])) with (match l ++ [x] with [] => [(y + 1)%N] | _ :: _ => y :: bump_last (l ++ [x]) end).
  destruct l as [|z l]; [reflexivity|]; cbn [app]; f_equal; apply (IH (length (z :: l)) eq_refl).
Qed.

Lemma vprune_resize_facts grow k len pruned path : (forall c, c < grow c) -> (N.of_nat (S k) <= usize_max)%N -> vec_wf path -> length pruned = v_len path ->
  vec_ok (S k) pruned -> vec_ok (S k) (vec_list path) ->
  exists pruned' path', vprune_resize grow len pruned path = Ok (pruned', path') /\ length pruned' = len /\ vec_ok (S k) pruned' /\
    vec_wf path' /\ vec_list path' = drift len (vec_list path) /\ vec_ok k (vec_list path') /\
    (v_cap path', v_id path') = pushes grow (len - v_len path) (v_len path) (v_cap path) (v_id path) /\
    (v_id path' = v_id path -> v_buf path' = vec_list path' ++ skipn len (v_buf path)).
Proof.
  intros Hg Hk Hw El Hp Hq; pose proof (vec_list_len _ Hw) as Ev; unfold vprune_resize; rewrite El; unfold drift; rewrite Ev.
  destruct (Nat.ltb_spec (v_len path) len) as [Hl|Hl].
  - destruct (vec_push_zeros_facts grow (len - v_len path) Hg path Hw) as (H1 & H2 & H3 & H4).
    pose proof (vec_list_len _ H1) as E1; rewrite H2, app_length, repeat_length, Ev in E1.
    eexists _, _; split; [reflexivity|]; split; [rewrite app_length, repeat_length; lia|]; split; [apply vec_ok_repeat; [lia|exact Hp]|].
    split; [exact H1|]; split; [exact H2|]; split; [rewrite H2; apply vec_ok_repeat; [lia|]; eapply vec_ok_le; [|exact Hq]; lia|].
    split; [exact H3|]; intros E; rewrite H4 by exact E; do 2 f_equal; lia.
  - replace (len - v_len path) with 0 by lia; cbn [pushes].
    destruct (Nat.ltb_spec len (v_len path)) as [Hl2|Hl2].
    + destruct Hw as [Hw1 Hw2].
      unfold vec_succ_last, vec_truncate; cbn [v_len v_buf v_cap v_id]; replace (Nat.min len (v_len path)) with len by lia.
      assert (Hf : firstn len (vec_list path) = firstn len (v_buf path)) by (unfold vec_list; rewrite firstn_firstn; f_equal; lia).
      rewrite Hf; destruct len as [|m].
      * eexists _, _; split; [reflexivity|]; cbn [firstn]; split; [reflexivity|]; split; [constructor|]; split; [split; cbn; lia|].
        split; [reflexivity|]; split; [constructor|]; split; [reflexivity|]; reflexivity.
      * assert (Es : firstn (S m) (v_buf path) = firstn m (v_buf path) ++ [nth m (v_buf path) 0%N]).
        { clear -Hl2 Hw1; assert (Hm : m < length (v_buf path)) by lia; clear Hl2 Hw1; revert Hm; generalize (v_buf path) as b; induction m as [|m IH]; intros [|x b] Hm; cbn in Hm; try lia; [reflexivity|].
          cbn [firstn nth app]; f_equal; rewrite <- IH by lia; reflexivity. }
        assert (Hx : (nth m (v_buf path) 0 + N.of_nat (S k) <= usize_max)%N).
        { pose proof (vec_ok_firstn _ (S m) _ Hq) as Ho; rewrite Hf, Es in Ho; apply Forall_app in Ho as [_ Ho]; inversion Ho; subst; assumption. }
        rewrite checked_succ_lt by lia; cbn [bindR].
        assert (Hlm : length (firstn m (v_buf path)) = m) by (rewrite firstn_length; lia).
        assert (Ed : bump_last (firstn (S m) (v_buf path)) = firstn m (v_buf path) ++ [(nth m (v_buf path) 0 + 1)%N]) by (rewrite Es; apply (bump_last_app m), Hlm).
        assert (El' : vec_list (mkVec (firstn m (v_buf path) ++ (nth m (v_buf path) 0 + 1)%N :: skipn (S m) (v_buf path)) (S m) (v_cap path) (v_id path)) =
          bump_last (firstn (S m) (v_buf path))).
        { unfold vec_list; cbn [v_len v_buf]; rewrite firstn_app, firstn_all2 by lia; rewrite Hlm; replace (S m - m) with 1 by lia; rewrite Ed; reflexivity. }
        eexists _, _; split; [reflexivity|]; split; [rewrite firstn_length; lia|]; split; [apply vec_ok_firstn; exact Hp|].
        split; [split; cbn [v_len v_buf v_cap]; [rewrite app_length; cbn [length]; rewrite Hlm; lia|lia]|].
        split; [exact El'|]; split.
        { rewrite El'; apply succ_last_bump; rewrite <- Hf; apply vec_ok_firstn; exact Hq. }
        split; [reflexivity|]; intros _; rewrite El', Ed; cbn [v_buf]; rewrite <- app_assoc; reflexivity.
    + assert (len = v_len path) by lia; subst len.
      eexists _, _; split; [reflexivity|]; split; [exact El|]; split; [exact Hp|]; split; [exact Hw|]; split; [reflexivity|].
      split; [eapply vec_ok_le; [|exact Hq]; lia|]; split; [reflexivity|]; intros _; unfold vec_list; rewrite firstn_skipn; reflexivity.
Qed.

(** ** The pointer *)
Definition ptr_ok (v : vec) (p : pointer) : Prop :=
  room p = v_cap v /\ buffer p = v_id v /\ taken p <= v_id v /\ (taken p = v_id v -> firstn (length (shown p)) (v_buf v) = shown p).

Lemma firstn_over_app {X} (w d b : list X) : firstn (length w) b = w ->
  firstn (length w) (d ++ skipn (length d) b) = firstn (length w) (d ++ skipn (length d) w).
Proof.
  intros E; rewrite !firstn_app; f_equal.
  destruct (Nat.le_gt_cases (length w) (length d)) as [Hl|Hl].
  - replace (length w - length d) with 0 by lia; reflexivity.
  - rewrite firstn_skipn_comm; replace (length d + (length w - length d)) with (length w) by lia; rewrite E.
    symmetry; apply firstn_all2; rewrite skipn_length; lia.
Qed.

Lemma ptr_step grow path path' p : vec_wf path -> vec_wf path' -> ptr_ok path p ->
  (v_cap path', v_id path') = pushes grow (v_len path' - v_len path) (v_len path) (v_cap path) (v_id path) ->
  (v_id path' = v_id path -> v_buf path' = vec_list path' ++ skipn (v_len path') (v_buf path)) ->
  ptr_ok path' (pointer_after grow (vec_list path) (vec_list path') p).
Proof.
  intros Hw Hw' (H1 & H2 & H3 & H4) Hp Hb; unfold pointer_after; rewrite !vec_list_len by assumption; rewrite H1, H2, <- Hp.
  pose proof (pushes_mono grow (v_len path' - v_len path) (v_len path) (v_cap path) (v_id path)) as Hm; rewrite <- Hp in Hm; cbn [snd] in Hm.
  unfold ptr_ok; cbn [room buffer taken shown]; split; [reflexivity|]; split; [reflexivity|]; split; [lia|].
  intros E; assert (E1 : v_id path' = v_id path) by lia; rewrite (Hb E1).
  assert (E2 : firstn (length (shown p)) (v_buf path) = shown p) by (apply H4; lia).
  rewrite <- (vec_list_len _ Hw').
  set (d := vec_list path'); rewrite <- (firstn_over_app _ d _ E2).
  rewrite firstn_length, app_length, skipn_length.
  pose proof (f_equal (@length N) E2) as E3; rewrite firstn_length in E3.
  f_equal; lia.
Qed.

Lemma ptr_same grow path p : vec_wf path -> ptr_ok path p -> ptr_ok path (pointer_after grow (vec_list path) (vec_list path) p).
Proof.
  intros Hw Hp; apply ptr_step; auto; [rewrite Nat.sub_diag; reflexivity|]; intros _; unfold vec_list; rewrite firstn_skipn; reflexivity.
Qed.

Definition retaken (v : list N) (p : pointer) : pointer := mkPointer v (buffer p) (room p) (buffer p).
Lemma ptr_retake path p : vec_wf path -> ptr_ok path p -> ptr_ok path (retaken (vec_list path) p).
Proof.
  intros Hw (H1 & H2 & H3 & H4); unfold ptr_ok, retaken; cbn; repeat split; auto; [lia|].
  intros _; rewrite vec_list_len by exact Hw; reflexivity.
Qed.

(** The vector a stage begins with. *)
Lemma vec_from_facts grow start : (forall c, c < grow c) ->
  let v := vec_from grow start in
  vec_wf v /\ vec_list v = start /\ (v_cap v, v_id v) = pushes grow (length start) 0 0 0 /\ ptr_ok v (first_pointer grow start).
Proof.
  intros Hg.
  assert (Hf : forall l v, vec_wf v -> let v' := fold_left (vec_push grow) l v in
    vec_wf v' /\ vec_list v' = vec_list v ++ l /\ (v_cap v', v_id v') = pushes grow (length l) (v_len v) (v_cap v) (v_id v)).
  { induction l as [|x l IH]; intros v Hw; cbn [fold_left length pushes].
    - split; [exact Hw|]; split; [rewrite app_nil_r; reflexivity|reflexivity].
    - destruct (vec_push_facts grow v x Hg Hw) as (H1 & H2 & H3 & _).
      pose proof (vec_list_len _ Hw) as E0; pose proof (vec_list_len _ H1) as E1; rewrite H2, app_length, E0, Nat.add_1_r in E1.
      destruct (IH _ H1) as (I1 & I2 & I3); split; [exact I1|]; split; [rewrite I2, H2, <- app_assoc; reflexivity|].
      rewrite I3, <- E1; destruct (v_len v <? v_cap v); injection H3 as -> ->; reflexivity. }
  destruct (Hf start (vec_new 0)) as (H1 & H2 & H3); [split; cbn; lia|]; cbn [vec_new v_len v_cap v_id] in H3.
  cbv zeta; fold (vec_from grow start) in H1, H2, H3; cbn in H2; split; [exact H1|]; split; [exact H2|]; split; [exact H3|].
  unfold first_pointer; rewrite <- H3; unfold ptr_ok; cbn [room buffer taken shown]; repeat (split; [reflexivity || lia|]).
  intros _; rewrite <- H2 at 1; rewrite (vec_list_len _ H1); exact H2.
Qed.
