(** * Property C54 for the contexts of binary trees and the contexts without children.

    As PropUnwind.v; the iterators are in ModelUnwindCtx.v.  [no_children] (SpecObs.v) is the context without its children, as
    the owned postorder and inorder iterators give it. *)
From Verif Require Import Prelim PrelimFacts Spec SpecFacts SpecObs ModelNode NodeFacts ModelBfs ModelPre ModelPost ModelIn ModelUnwind ModelUnwindCtx SpecUnwind.
From Verif Require Import Slots ProofsPre ProofsPost ProofsIn ProofsUnwind ProofsUnwindIn ProofsUnwindTotal ProofsUnwindUntil ProofsUnwindCtx PropUnwind.

(** ** Inorder, owned: everything comes, in its place. *)
Theorem C54_inorder_context_owned : forall Nd V (gvcb : Nd -> option (V * (option Nd * option Nd))) bt, fnode_btree gvcb bt ->
  forall n, exists s, in_attach_context_owned (V:=V) (in_new n) = Ok s /\
    yields (uinco_next gvcb) s (map (outcome_map no_children) (map (seen_context gvcb) (inorder (bpositions (bt n))))).
Proof.
  intros Nd V gvcb bt H n; eexists; split; [reflexivity|].
  destruct (C54_inorder_context Nd V gvcb bt H n) as (s & E & Hy); injection E as <-.
  exact (yields_sim_ok forget_inc (outcome_map no_children) _ _ (uinco_next_sim gvcb) _ _ Hy).
Qed.
Print Assumptions C54_inorder_context_owned.

(** ** The others are right up to the first panic, that panic included. *)
Theorem C54_until_panic_context_binary : forall Nd V (gvcb : Nd -> option (V * (option Nd * option Nd))) bt, fnode_btree gvcb bt -> forall n,
  (exists s, pre_attach_context (pre_new n) = Ok s /\
     yields_until_panic (uprecb_next gvcb) s (map (seen_context gvcb) (preorder (flat (bpositions (bt n)))))) /\
  (exists s, post_attach_context (post_new (V := V) n) = Ok s /\
     yields_until_panic (upostcb_next gvcb) s (map (seen_context gvcb) (postorder (flat (bpositions (bt n)))))) /\
  match ubfscb_start gvcb n [] with
  | None => gvcb n = None
  | Some s => yields_until_panic (ubfscb_next gvcb) s (map (seen_context gvcb) (bfs (flat (bpositions (bt n)))))
  end.
Proof.
  intros Nd V gvcb bt H n; split; [|split].
  - eexists; split; [reflexivity|exact (precb_until gvcb bt [] n H)].
  - eexists; split; [reflexivity|exact (postcb_until gvcb bt [] n H)].
  - destruct (ubfscb_start gvcb n []) as [s|] eqn:E; [exact (bfscb_until gvcb bt [] n s H E)|].
    unfold ubfscb_start in E; destruct (gvcb n) as [[v c]|]; [discriminate E|reflexivity].
Qed.
Print Assumptions C54_until_panic_context_binary.

Theorem C54_until_panic_context_owned :
  (forall Nd V (gvc : Nd -> option (V * list Nd)) nt, fnode_tree gvc nt -> forall n, small_fnodes gvc (nt n) ->
   exists s, post_attach_context_owned (post_new (V := V) n) = Ok s /\
     yields_until_panic (upostco_next gvc) s (map (outcome_map no_children) (map (seen_context gvc) (postorder (positions (nt n)))))) /\
  (forall Nd V (gvcb : Nd -> option (V * (option Nd * option Nd))) bt, fnode_btree gvcb bt -> forall n,
   exists s, post_attach_context_owned (post_new (V := V) n) = Ok s /\
     yields_until_panic (upostcob_next gvcb) s (map (outcome_map no_children) (map (seen_context gvcb) (postorder (flat (bpositions (bt n))))))).
Proof.
  split.
  - intros Nd V gvc nt H n Hs; eexists; split; [reflexivity|].
    exact (until_sim_ok forget_postc no_children _ _ (postco_until_sim gvc) _ _ (postc_until gvc nt [] n H Hs)).
  - intros Nd V gvcb bt H n; eexists; split; [reflexivity|].
    exact (until_sim_ok forget_postc no_children _ _ (postcob_until_sim gvcb) _ _ (postcb_until gvcb bt [] n H)).
Qed.
Print Assumptions C54_until_panic_context_owned.

(** The contexts as a caller sees them: the path and the ancestors, or the panic. *)
Definition told_brief {V C} (o : option (outcome (tree_context V C))) : option (option (list nat * list V)) :=
  option_map (fun o => match o with Got c => Some (map N.to_nat (c_path c), c_ancestors c) | Unwound => None end) o.
(** The first panic of this tree comes third in preorder and in postorder; [fnode_btree_met] of PropUnwind.v is about its nodes. *)
Definition shy_btree2 : btree nat :=
  BNode 1 (Some (BNode 2 None (Some (BNode 4 None None)))) (Some (BNode 0 (Some (BNode 9 None None)) None)).
Example C54_context_ex : exists s1 s2 s3 s4 l1 l2 l3 l4,
  calls (uprecb_next shy_gvcb) 4 (prec_new shy_btree2 []) 40 = Ok (l1, s1) /\
  map told_brief l1 = [Some (Some ([], [1])); Some (Some ([0], [1; 2])); Some (Some ([0; 1], [1; 2; 4])); Some None] /\
  calls (upostcb_next shy_gvcb) 3 (postc_new shy_btree2 []) 40 = Ok (l2, s2) /\
  map told_brief l2 = [Some (Some ([0; 1], [1; 2; 4])); Some (Some ([0], [1; 2])); Some None] /\
  calls (upostcob_next shy_gvcb) 3 (postco_new shy_btree2 []) 40 = Ok (l3, s3) /\
  map told_brief l3 = [Some (Some ([0; 1], [1; 2; 4])); Some (Some ([0], [1; 2])); Some None] /\
  calls (uinco_next shy_gvcb) 6 (inco_new shy_btree2 []) 40 = Ok (l4, s4) /\
  map told_brief l4 = [Some (Some ([0], [1; 2])); Some (Some ([0; 1], [1; 2; 4])); Some (Some ([], [1])); Some None; None; None].
Proof. vm_compute; do 8 eexists; repeat split; reflexivity. Qed.
Example C54_bfs_context_ex : exists s s' l, ubfscb_start shy_gvcb shy_btree2 [] = Some s /\
  calls (ubfscb_next shy_gvcb) 3 s 40 = Ok (l, s') /\ map told_brief l = [Some (Some ([], [1])); Some (Some ([0], [1; 2])); Some None].
Proof. do 3 eexists; split; [reflexivity|split; vm_compute; reflexivity]. Qed.

(** A panic on the root ends them. *)
Theorem C54_root_panic_context : forall Nd V (gvc : Nd -> option (V * list Nd)) (gvcb : Nd -> option (V * (option Nd * option Nd))) n,
  gvc n = None -> gvcb n = None ->
  yields (uprecb_next gvcb) (prec_new n []) [Unwound] /\
  yields (upostcb_next gvcb) (postc_new n []) [Unwound] /\
  yields (upostco_next gvc) (postco_new n []) [Unwound] /\
  yields (upostcob_next gvcb) (postco_new n []) [Unwound] /\
  ubfscb_start gvcb n [] = None.
Proof.
  intros Nd V gvc gvcb n E Eb.
  assert (Hend : forall S A (next : nat -> S -> Res (option (outcome A) * S)) s s1,
    (fun f => next f s) ⇓ Ok (Some Unwound, s1) -> (fun f => next f s1) ⇓ Ok (None, s1) -> yields next s [Unwound]).
  { intros S A next s s1 H1 H2.
    apply (step_inv_yields next (fun x l => (x = s /\ l = [Unwound]) \/ (x = s1 /\ l = []))); [|left; auto].
    intros x l [[-> ->]|[-> ->]]; (exists s1; split; [assumption|right; auto]). }
  repeat split.
  - apply (Hend _ _ _ _ (mkPrec None [] [] [] None)); [|apply conv_eq; reflexivity].
    apply conv_eq; intros; unfold uprecb_next, uprecb_advance, prec_new; cbn [pc_root]; rewrite Eb; reflexivity.
  - apply (Hend _ _ _ _ (mkPostc None [] [] [] [] None)); [|apply conv_eq; reflexivity].
    apply conv_eq; intros; unfold upostcb_next, upostcb_advance, postc_new; cbn [ModelPost.pt_root]; rewrite Eb; reflexivity.
  - apply (Hend _ _ _ _ (mkPostcO None [] [] [])); [|apply conv_eq; reflexivity].
    apply conv_eq; intros; unfold upostco_next, upostco_next_with, upostco_advance, postco_new; cbn [pto_root]; rewrite E; reflexivity.
  - apply (Hend _ _ _ _ (mkPostcO None [] [] [])); [|apply conv_eq; reflexivity].
    apply conv_eq; intros; unfold upostcob_next, upostco_next_with, upostco_advance, postco_new; cbn [pto_root]; rewrite Eb; reflexivity.
  - unfold ubfscb_start; rewrite Eb; reflexivity.
Qed.
Print Assumptions C54_root_panic_context.

(** ** After it they are left in a wrong state.

    In each of these the left child [f] of the root panics.  Preorder: the context of the right child [b] has the right path, and
    lacks the root among its ancestors. *)
Theorem C54_preorder_context_binary_refuted : forall Nd V (gvcb : Nd -> option (V * (option Nd * option Nd))) r v f b w kids,
  gvcb r = Some (v, (Some f, Some b)) -> gvcb f = None -> gvcb b = Some (w, kids) ->
  exists s s', pre_attach_context (pre_new r) = Ok s /\
    calls (uprecb_next gvcb) 3 s ⇓
      Ok ([Some (Got (mkCtx [] [v] (Some (Some f, Some b)))); Some Unwound; Some (Got (mkCtx [1%N] [w] (Some kids)))], s').
Proof.
  intros Nd V gvcb r v f b w kids Er Ef Eb; do 2 eexists; split; [reflexivity|].
  eapply calls_S; [|eapply calls_S; [|eapply calls_S; [|apply calls_0]]].
  - apply conv_eq; intros k; unfold uprecb_next, uprecb_advance, prec_new; cbn [pc_root]; rewrite Er; reflexivity.
  - eapply (conv_bind _ (Raised (mkPrec None [[Some b]] [0%N] [v] None)) (fun _ => _)); [|apply conv_eq; reflexivity].
    unfold uprecb_advance; cbn [pc_root pc_anc pc_children pc_stack pc_path].
    eapply (conv_bind _ _ (fun _ => _)); [apply loop_done, conv_eq; intros; reflexivity|].
    apply conv_eq; intros; cbn beta iota; rewrite Ef; reflexivity.
  - eapply (conv_bind _ (Done (mkPrec None [[]] [1%N] [w] (Some kids))) (fun _ => _)); [|apply conv_eq; reflexivity].
    unfold uprecb_advance; cbn [pc_root pc_anc pc_children pc_stack pc_path].
    eapply (conv_bind _ _ (fun _ => _)); [apply loop_done, conv_eq; intros; reflexivity|].
    apply conv_eq; intros; cbn beta iota; rewrite Eb; reflexivity.
Qed.
Print Assumptions C54_preorder_context_binary_refuted.

(** Postorder, with children and without: the rest of the tree is lost. *)
Theorem C54_postorder_context_binary_refuted : forall Nd V (gvcb : Nd -> option (V * (option Nd * option Nd))) r v f b k,
  gvcb r = Some (v, (Some f, b)) -> gvcb f = None ->
  (exists s s', post_attach_context (post_new (V := V) r) = Ok s /\ calls (upostcb_next gvcb) (S k) s ⇓ Ok (Some Unwound :: repeat None k, s')) /\
  (exists s s', post_attach_context_owned (post_new (V := V) r) = Ok s /\ calls (upostcob_next gvcb) (S k) s ⇓ Ok (Some Unwound :: repeat None k, s')).
Proof.
  intros Nd V gvcb r v f b k Er Ef.
  assert (Hnone : forall j s, pt_root s = None -> tl (pt_anc s) = [] -> exists s', calls (upostcb_next gvcb) j s ⇓ Ok (repeat None j, s')).
  { induction j as [|j IH]; intros s Hr Ht; [exists s; apply calls_0|].
    set (s1 := mkPostc None (pt_stack s) (pt_conts s) (pt_path s) [] (pt_children s) : postc Nd V (option Nd) (option Nd * option Nd)).
    destruct (IH s1) as (s' & Hc); [reflexivity|reflexivity|].
    exists s'; cbn [repeat]; eapply calls_S; [|exact Hc].
    apply conv_eq; intros; unfold upostcb_next, upostcb_advance; rewrite Hr, Ht; reflexivity. }
  destruct (Hnone k (mkPostc None [[b]] [(Some f, b)] [0%N] [v] None)) as (s' & Hc); [reflexivity|reflexivity|].
  assert (Hs : calls (upostcb_next gvcb) (S k) (postc_new r []) ⇓ Ok (Some Unwound :: repeat None k, s')).
  { eapply calls_S; [|exact Hc].
    eapply (conv_bind _ (Raised (mkPostc None [[b]] [(Some f, b)] [0%N] [v] None)) (fun _ => _)); [|apply conv_eq; reflexivity].
    unfold upostcb_advance, postc_new; cbn [pt_root pt_stack pt_conts pt_path pt_anc pt_children]; rewrite Er.
    eapply (conv_bind _ (Raised ([[b]], [(Some f, b)], [0%N], [v]), None) (fun _ => _)); [apply loop_done, conv_eq; intros; unfold upostcb_body; cbn [rev]|apply conv_eq; reflexivity].
    cbn [pair_iter fst snd prec_scan incr_last bindR]; rewrite Ef; reflexivity. }
  split; [eexists; exists s'; split; [reflexivity|exact Hs]|].
  eexists; exists (forget_postc s'); split; [reflexivity|]; destruct Hs as [F HF]; exists F; intros fu Hfu.
  pose proof (calls_sim_ok forget_postc _ _ _ (postcob_until_sim gvcb) _ _ _ _ _ (HF fu Hfu)) as Hc'.
  refine (eq_trans Hc' _); cbn [map option_map outcome_map].
  f_equal; f_equal; f_equal; clear; induction k as [|k IH]; [reflexivity|cbn; f_equal; exact IH].
Qed.
Print Assumptions C54_postorder_context_binary_refuted.
Theorem C54_postorder_context_owned_refuted : forall Nd V (gvc : Nd -> option (V * list Nd)) r v f rest k,
  gvc r = Some (v, f :: rest) -> gvc f = None ->
  exists s s', post_attach_context_owned (post_new (V := V) r) = Ok s /\ calls (upostco_next gvc) (S k) s ⇓ Ok (Some Unwound :: repeat None k, s').
Proof.
  intros Nd V gvc r v f rest k Er Ef; destruct (C54_postorder_context_refuted Nd V gvc r v f rest k Er Ef) as (s & s' & E & F & HF); injection E as <-.
  eexists; exists (forget_postc s'); split; [reflexivity|]; exists F; intros fu Hfu.
  pose proof (calls_sim_ok forget_postc _ _ _ (postco_until_sim gvc) _ _ _ _ _ (HF fu Hfu)) as Hc.
  refine (eq_trans Hc _); cbn [map option_map outcome_map].
  f_equal; f_equal; f_equal; clear; induction k as [|k IH]; [reflexivity|cbn; f_equal; exact IH].
Qed.
Print Assumptions C54_postorder_context_owned_refuted.

(** Breadth first: the call after the panic panics by itself ([None.unwrap()]). *)
Theorem C54_bfs_context_binary_refuted : forall Nd V (gvcb : Nd -> option (V * (option Nd * option Nd))) r v f b,
  gvcb r = Some (v, (Some f, b)) -> gvcb f = None ->
  exists s s', ubfscb_start gvcb r [] = Some s /\
    calls (ubfscb_next gvcb) 2 s ⇓ Ok ([Some (Got (mkCtx [] [v] (Some (Some f, b)))); Some Unwound], s') /\
    (fun fu => ubfscb_next gvcb fu s') ⇓ Panic.
Proof.
  intros Nd V gvcb r v f b Er Ef; do 2 eexists; split; [unfold ubfscb_start; rewrite Er; reflexivity|split].
  - eapply calls_S; [apply conv_eq; reflexivity|eapply calls_S; [|apply calls_0]].
    eapply (conv_bind _ (Raised (mkBfsc false cn_default [] [[b]] [0%N] [v] None 1%N)) (fun _ => _)); [|apply conv_eq; reflexivity].
    unfold ubfscb_advance; cbn.
    apply loop_done, conv_eq; intros; unfold ubfscb_body; cbn; rewrite Ef; reflexivity.
  - apply conv_eq; reflexivity.
Qed.
Print Assumptions C54_bfs_context_binary_refuted.

(** [BNode 1 (Some (BNode 0 ..)) (Some (BNode 3 ..))] meets the hypotheses. *)
Example C54_context_refuted_met :
  let f := BNode 0 None None in let b := BNode 3 None None in
  shy_gvcb (BNode 1 (Some f) (Some b)) = Some (1, (Some f, Some b)) /\ shy_gvcb f = None /\ shy_gvcb b = Some (3, (None, None)).
Proof. repeat split. Qed.

(** ** Where nothing panics, these are the iterators of the other files. *)
Theorem C54_no_panic_context : forall Nd V (g : Nd -> V * list Nd) (gb : Nd -> V * (option Nd * option Nd)) fuel,
  let u := fun n => Some (g n) in let ub := fun n => Some (gb n) in
  let went {S A} (m : Res (option A * S)) := '(o, s) <- m ;; Ok (option_map Got o, s) in
  (forall s, uprecb_next ub fuel s = went (precb_next gb pair_iter fuel s)) /\
  (forall s, upostcb_next ub fuel s = went (postcb_next gb pair_iter fuel s)) /\
  (forall s, ubfscb_next ub fuel s = went (bfscb_next gb pair_iter fuel s)) /\
  (forall r, option_map Ok (ubfscb_start ub r []) = Some (bfs_attach_context_binary gb (bfs_new r))) /\
  (forall s, upostco_next u fuel s = went (postco_next g fuel s)) /\
  (forall s, upostcob_next ub fuel s = went (postcob_next gb pair_iter fuel s)) /\
  (forall s, uinco_next ub fuel s = went (inco_next gb fuel s)).
Proof.
  intros Nd V g gb fuel u ub went.
  assert (E : forall S A (m : Res (option A * S)), went _ _ m = (x <- m ;; Ok (ran_ok x))) by (intros S A [[? ?]| | |]; reflexivity).
  repeat apply conj; intros; rewrite ?E.
  - apply uprecb_total. - apply upostcb_total. - apply ubfscb_total.
  - unfold ubfscb_start, bfs_attach_context_binary, ub; cbn; destruct (gb r); reflexivity.
  - apply upostco_total. - apply upostcob_total. - apply uinco_total.
Qed.
Print Assumptions C54_no_panic_context.
