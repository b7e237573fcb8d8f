(** * Property C60 for collections: user code that panics inside a pipeline over a collection of trees. *)
From Verif Require Import Prelim PrelimFacts Spec SpecFacts ModelUnwind SpecUnwind SpecPipe SpecPipeColl SpecUnwindPipe SpecObs ModelNode NodeFacts ModelPre ModelPipe
  ModelPipeColl ModelUnwindPipe ModelUnwindPipeColl ProofsPlain ProofsUnwind ProofsUnwindIn Slots PipeCore PipeBase PipeChain PipeEnd ProofsPipe PipeFinal
  PipeCollBase ProofsPipeColl PipeCollFinal ProofsUnwindPipe ProofsUnwindPipeColl PropUnwind PropUnwindPipe.

(** Paths start with the index of the tree. *)
Theorem C60_each_chain : forall Nd V (gvc : Nd -> option (V * list Nd)) nt, fnode_tree gvc nt ->
  forall A (c : uchain V A) trees, utrue_paths c = true -> small_collection trees ->
  (uhas_prune c = true -> (N.of_nat (length (flat_map (fun n => preorder (nt n)) trees)) <= usize_max)%N) ->
  let '(gs, os) := walk_all (with_node (uat_node_each (seen gvc) c)) (uclos_init c) (each_positions (map nt trees)) in
  let P := ueach_chain (uinto_pipeline_each gvc trees) c in
  delivers (p_next P) (p_path P) (uclosures coll_depth [0%N] (uinto_pipeline_each gvc trees) c) (p_init P) path_length (flat_map preorder os) gs.
Proof.
  intros Nd V gvc nt H A c trees Ht Hc Hb; pose proof (ueach_gives gvc nt H c trees Ht Hc Hb) as Hd.
  destruct (walk_all _ _ _) as [gs os]; cbn [fst snd] in Hd.
  eapply delivers_weaken; [|exact Hd].
  intros p [[a|] x] _; unfold pok_of, path_length; cbn; [apply ukept_len1|auto].
Qed.
Print Assumptions C60_each_chain.

Theorem C60_each_chain_path : forall Nd V (gvc : Nd -> option (V * list Nd)) nt, fnode_tree gvc nt ->
  forall A (c : uchain V A) trees, uhas_prune c = false -> small_collection trees ->
  (N.of_nat (length (flat_map (fun n => preorder (nt n)) trees)) <= usize_max)%N ->
  let '(gs, os) := walk_all (with_node (uat_node_each (seen gvc) c)) (uclos_init c) (each_positions (map nt trees)) in
  let P := ueach_chain (uinto_pipeline_each gvc trees) c in
  delivers (p_next P) (p_path P) (uclosures coll_depth [0%N] (uinto_pipeline_each gvc trees) c) (p_init P) true_path (flat_map preorder os) gs.
Proof.
  intros Nd V gvc nt H A c trees Hn Hc Hb.
  assert (Ht : utrue_paths c = true).
  { clear - Hn; induction c as [|A B G c IH g f|A G c IH g f|A G c IH g f|A c IH lim]; cbn in *; auto; discriminate. }
  pose proof (ueach_gives gvc nt H c trees Ht Hc (fun _ => Hb)) as Hd.
  pose proof (walk_all_in (uat_node_each (seen gvc) c) (each_positions (map nt trees)) (uclos_init c)) as Hin.
  destruct (walk_all _ _ _) as [gs os]; cbn [fst snd] in Hd, Hin; rewrite Hn in Hd.
  eapply delivers_weaken; [|exact Hd].
  intros p [b x] Hx Hp; specialize (Hin _ Hx); cbn in Hin; unfold true_path; cbn.
  rewrite each_positions_map in Hin; rewrite <- (each_xpath nt trees x Hc Hb Hin).
  destruct b; apply Hp.
Qed.
Print Assumptions C60_each_chain_path.

Theorem C60_each_chain_binary : forall Nd V (gvcb : Nd -> option (V * (option Nd * option Nd))) bt, fnode_btree gvcb bt ->
  forall A (c : uchain V A) trees, small_collection trees ->
  let '(gs, os) := bwalk_all (with_node (uat_node_each (seen gvcb) c)) (uclos_init c) (each_bpositions (map bt trees)) in
  let P := ueach_chain_binary (uinto_pipeline_each_binary gvcb trees) c in
  delivers (p_next P) (p_path P) (uclosures_binary coll_depth (uinto_pipeline_each_binary gvcb trees) c) (p_init P) true_path
    (flat_map preorder (map flat os)) gs.
Proof.
  intros Nd V gvcb bt H A c trees Hc; pose proof (ubeach_gives gvcb bt H c trees Hc) as Hd.
  pose proof (walk_all_in (uat_node_each (seen gvcb) c) (map flat (each_bpositions (map bt trees))) (uclos_init c)) as Hin.
  rewrite walk_all_flat in Hin.
  destruct (bwalk_all _ _ _) as [gs os]; cbn [fst snd] in Hd, Hin.
  eapply delivers_weaken; [|exact Hd].
  intros p [b x] Hx Hp; specialize (Hin _ Hx); cbn in Hin; unfold true_path; cbn.
  rewrite each_bpositions_map in Hin; rewrite <- (beach_xpath bt trees x Hc Hin); destruct b; apply Hp.
Qed.
Print Assumptions C60_each_chain_binary.

Definition shy_trees : list (tree nat) := [TNode 0 [TNode 7 []]; shy_tree; TNode 4 [TNode 6 []]].
Definition shy_btrees : list (btree nat) := [BNode 0 None None; shy_btree; BNode 4 None (Some (BNode 6 None None))].
Example C60_each_met : utrue_paths shy_chain = true /\ small_collection shy_trees /\ small_collection shy_btrees /\
  (N.of_nat (length (flat_map (fun n => preorder (shy_nt n)) shy_trees)) <= usize_max)%N.
Proof. repeat split; vm_compute; discriminate. Qed.
Example C60_each_ex : exists s1 s2,
  calls (p_next (ueach_chain (uinto_pipeline_each shy_gvc shy_trees) shy_chain)) 12 (p_init (ueach_chain (uinto_pipeline_each shy_gvc shy_trees) shy_chain)) 40 =
    Ok ([Some Unwound; Some (Got 10); Some (Got 21); Some Unwound; Some Unwound; Some Unwound; Some Unwound; Some (Got 54); Some Unwound; None; None; None], s1) /\
  uclosures coll_depth [0%N] (uinto_pipeline_each shy_gvc shy_trees) shy_chain s1 = (((tt, 7), 5), 4) /\
  calls (p_next (ueach_chain_binary (uinto_pipeline_each_binary shy_gvcb shy_btrees) shy_chain)) 11 (p_init (ueach_chain_binary (uinto_pipeline_each_binary shy_gvcb shy_btrees) shy_chain)) 40 =
    Ok ([Some Unwound; Some (Got 10); Some (Got 21); Some Unwound; Some Unwound; Some Unwound; Some (Got 54); Some Unwound; Some Unwound; Some (Got 66); None], s2).
Proof. eexists; eexists; split; [vm_compute; reflexivity|]; split; vm_compute; reflexivity. Qed.

(** ** When nothing panics *)
Lemma sure_coll {Nd V I C} (next : nat -> ptrack Nd I C -> Res (option V * ptrack Nd I C)) (next' : nat -> ptrack Nd I C -> Res (option (result V) * ptrack Nd I C)) s0 :
  (forall f s, next' f s = sure_res (fun s => s) (next f s)) ->
  sure_as (mkPipe (ctrack Nd I C) s0 (ct_next next) ct_path ct_prune) (mkPipe (ctrack Nd I C) s0 (ct_next next') ct_path ct_prune) (fun s => s).
Proof.
  intros Hn; split; [reflexivity|]; split; [|split; reflexivity].
  apply (sure_loop _ _ (fun s => s)); intros f [trees count [it|]]; unfold ct_body; cbn [ct_cur ct_trees ct_count].
  - rewrite Hn; destruct (next f it) as [[[v|] it']| | |]; cbn; try reflexivity.
    destruct trees as [|t trees]; cbn; [reflexivity|]; destruct (checked_succ count); reflexivity.
  - destruct trees as [|t trees]; cbn; [reflexivity|]; destruct (checked_succ count); reflexivity.
Qed.
Theorem C60_each_no_panic : forall Nd V (gvc : Nd -> V * list Nd) A (c : chain V A) trees,
  exists phi, sure_as (each_chain (into_pipeline_each gvc trees) c) (ueach_chain (uinto_pipeline_each (fun n => Some (gvc n)) trees) (sure c)) phi.
Proof. intros; eapply sure_chain, sure_coll; intros f s; apply (proj1 (proj2 (sure_base gvc (fun l => l) pt_body s))). Qed.
Print Assumptions C60_each_no_panic.
Theorem C60_each_no_panic_binary : forall Nd V (gvcb : Nd -> V * (option Nd * option Nd)) A (c : chain V A) trees,
  exists phi, sure_as (each_chain_binary (into_pipeline_each_binary gvcb trees) c) (ueach_chain_binary (uinto_pipeline_each_binary (fun n => Some (gvcb n)) trees) (sure c)) phi.
Proof. intros; eapply sure_chain_binary, sure_coll; intros f s; apply (proj1 (proj2 (sure_base gvcb pair_iter ptb_body s))). Qed.
Print Assumptions C60_each_no_panic_binary.
