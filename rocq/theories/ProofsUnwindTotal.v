(** * ProofsUnwindTotal: when the user's method never panics, the functions of ModelUnwind are those of the other files. *)
From Verif Require Import Prelim PrelimFacts Spec SpecObs ModelNode ModelBfs ModelPre ModelPost ModelIn ModelLeaves ModelUnwind.

Lemma loop_map {S R R'} (h : R -> R') (b1 : nat -> S -> Res (S + R)) (b2 : nat -> S -> Res (S + R')) :
  (forall f s, b2 f s = (x <- b1 f s ;; match x with inl s' => Ok (inl s') | inr r => Ok (inr (h r)) end)) ->
  forall f s, loop b2 f s = (r <- loop b1 f s ;; Ok (h r)).
Proof.
  intros H; induction f as [|f IH]; intros s; cbn [loop]; [reflexivity|].
  rewrite H; destruct (b1 f s) as [[s'|r]| | |]; cbn [bindR]; [apply IH|reflexivity..].
Qed.

(** A call that went through. *)
Definition ran_ok {S A} (x : option A * S) : option (outcome A) * S := (option_map Got (fst x), snd x).

Section Total.
  Context {Nd V : Type}.
  Variable g : Nd -> V * list Nd.
  Local Notation sg := (fun n => Some (g n)).

  Lemma ubfs_total f s : ubfs_next sg f s = (x <- bfs_next g f s ;; Ok (ran_ok x)).
  Proof.
    unfold ubfs_next, bfs_next; destruct (bfs_root s) as [r|]; [destruct (g r); reflexivity|].
    apply loop_map; clear; intros f q; unfold ubfs_body, bfs_next_body; destruct q as [|[|n t] r]; try reflexivity; destruct (g n); reflexivity.
  Qed.
  Lemma upre_total f s : upre_next sg f s = (x <- pre_next g f s ;; Ok (ran_ok x)).
  Proof.
    unfold upre_next, pre_next; destruct (pre_root s) as [r|]; [destruct (g r); reflexivity|].
    destruct (loop pre_next_body f (pre_stack s)) as [[[n|] st]| | |]; cbn [bindR]; try reflexivity; destruct (g n); reflexivity.
  Qed.
  Lemma upost_total f s : upost_next sg f s = (x <- post_next g f s ;; Ok (ran_ok x)).
  Proof.
    apply loop_map; clear; intros f [r it st]; unfold upost_body, post_next_body; cbn [po_root po_items po_stack].
    destruct r as [r|]; [destruct (g r); reflexivity|]; destruct st as [|[|n t] rest]; try reflexivity; destruct (g n); reflexivity.
  Qed.
  Lemma udleaves_total f s : udleaves_next sg f s = (x <- dleaves_next g f s ;; Ok (ran_ok x)).
  Proof.
    assert (H : forall f b s, loop (udleaves_body sg) f (b, s) = (x <- loop (dleaves_body g) f (b, s) ;; Ok (ran_ok x))).
    { clear; intros f b s; apply loop_map; clear; intros f [b [r bo to it]]; unfold udleaves_body, dleaves_body; cbn [dl_root dl_bottom dl_top dl_items].
      destruct to as [|[|n t] rest]; [destruct bo as [|[|n t] rest]; try reflexivity; destruct (g n); reflexivity|destruct b; reflexivity|destruct (g n); reflexivity]. }
    unfold udleaves_next, dleaves_next; destruct (dl_root s) as [r|]; [destruct (g r); apply H|apply H].
  Qed.
  Lemma ubleaves_total f s : ubleaves_next sg f s = (x <- bleaves_next g f s ;; Ok (ran_ok x)).
  Proof.
    assert (H : forall f s, ubleaves_bfs_next sg f s = (x <- bleaves_bfs_next g f s ;; Ok (ran_ok x))).
    { clear; intros f s; unfold ubleaves_bfs_next, bleaves_bfs_next; destruct (bl_root s) as [r|]; [destruct (g r); reflexivity|].
      apply loop_map; clear; intros f [r o n]; unfold ubleaves_bfs_body, bleaves_bfs_body; cbn [bl_root bl_old bl_new].
      destruct o as [|[|m t] o]; [destruct n as [|[|m t] n]; try reflexivity; destruct (g m); reflexivity|reflexivity|destruct (g m); reflexivity]. }
    apply loop_map; clear f s; intros f s; unfold ubleaves_body, bleaves_body; rewrite H.
    destruct (bleaves_bfs_next g f s) as [[[[[|] v]|] s']| | |]; reflexivity.
  Qed.
  Lemma uprea_total f s : uprea_next sg f s = (x <- prea_next g f s ;; Ok (ran_ok x)).
  Proof.
    unfold uprea_next, prea_next, uprea_advance, prea_advance; destruct (pa_root s) as [r|]; [destruct (g r); reflexivity|].
    destruct (loop prea_body f (pa_stack s, pa_items s)) as [[[[n|] st] it]| | |]; cbn [bindR]; try reflexivity; destruct (g n); reflexivity.
  Qed.
  Lemma uposta_total f s : uposta_next sg f s = (x <- posta_next g f s ;; Ok (ran_ok x)).
  Proof.
    assert (H : forall f s, loop (uposta_body sg) f s = (x <- loop (posta_body g) f s ;; Ok (Done x))).
    { apply loop_map; clear; intros f [it st]; unfold uposta_body, posta_body; destruct st as [|[|n t] rest]; try reflexivity; destruct (g n); reflexivity. }
    unfold uposta_next, posta_next, uposta_advance, posta_advance; destruct (po_root s) as [r|].
    - destruct (g r) as [v c]; rewrite H; destruct (loop (posta_body g) f _) as [[? ?]| | |]; reflexivity.
    - rewrite H; destruct (loop (posta_body g) f _) as [[? ?]| | |]; reflexivity.
  Qed.
  Lemma udaleaves_total f s : udaleaves_next sg f s = (x <- daleaves_next g f s ;; Ok (ran_ok x)).
  Proof.
    assert (H : forall f s, loop (udaleaves_body sg) f s = (x <- loop (daleaves_body g) f s ;; Ok (Done x))).
    { apply loop_map; clear; intros f [b [r it o n]]; unfold udaleaves_body, daleaves_body; cbn [da_root da_items da_old da_new].
      destruct n as [|[|m t] n]; [| |destruct (g m); reflexivity];
        (destruct b; [reflexivity|destruct o as [|[|m t] o]; [destruct (tl it); reflexivity..|destruct (g m); reflexivity]]). }
    unfold udaleaves_next, daleaves_next, udaleaves_advance, daleaves_advance; destruct (da_root s) as [r|].
    - destruct (g r) as [v c]; rewrite H; destruct (loop (daleaves_body g) f _); reflexivity.
    - rewrite H; destruct (loop (daleaves_body g) f _); reflexivity.
  Qed.
  Lemma ubfsa_total f s : ubfsa_next sg f s = (x <- bfsa_next g f s ;; Ok (ran_ok x)).
  Proof.
    unfold ubfsa_next, bfsa_next, ubfsa_advance, bfsa_advance; destruct (ba_is_root s); [reflexivity|].
    rewrite (loop_map (@Done _) (bfsa_advance_body g) (ubfsa_body sg)).
    - destruct (loop (bfsa_advance_body g) f s); reflexivity.
    - clear; intros f s; unfold ubfsa_body, bfsa_advance_body.
      destruct (maybe_pop _) as [[[it ca] st]| | |]; cbn [bindR]; try reflexivity.
      destruct (ba_queue s) as [|[|n t] q]; [reflexivity| |destruct (g n); reflexivity].
      destruct (to_next_parent f _) as [[[? ?] ?]| | |]; cbn [bindR]; try reflexivity; destruct q; reflexivity.
  Qed.
  Lemma ubaleaves_total f s : ubaleaves_next sg f s = (x <- baleaves_next g f s ;; Ok (ran_ok x)).
  Proof.
    unfold ubaleaves_next, baleaves_next, baleaves_advance; rewrite (loop_map (@Done _) (baleaves_body g) (ubaleaves_body sg)).
    - destruct (loop (baleaves_body g) f s); reflexivity.
    - clear; intros f s; unfold ubaleaves_body, baleaves_body; destruct (ba_queue s) as [|front q]; [reflexivity|].
      destruct (maybe_pop _) as [[[it ca] st]| | |]; cbn [bindR]; try reflexivity.
      destruct front as [|n t]; [|destruct (g n) as [v [|c cs]]; reflexivity].
      destruct (ba_is_root s); [reflexivity|]; destruct (to_next_parent f _) as [[[? ?] ?]| | |]; reflexivity.
  Qed.
  Lemma ubfsa_new_total r : ubfsa_new sg r = Some (bfsa_new g r).
  Proof. unfold ubfsa_new, bfsa_new; destruct (g r); reflexivity. Qed.
  Lemma uprec_total f s : uprec_next sg f s = (x <- prec_next g f s ;; Ok (ran_ok x)).
  Proof.
    unfold uprec_next, prec_next, uprec_advance, prec_advance, prec_advance_with; destruct (pc_root s) as [r|]; [destruct (g r); reflexivity|].
    destruct (pc_anc s) as [|a l] eqn:E; [reflexivity|].
    destruct (pc_children s) as [c|].
    - destruct (loop prec_body f _) as [[[n|] [[? ?] ?]]| | |]; cbn [bindR]; try reflexivity; destruct (g n); reflexivity.
    - destruct (loop prec_body f _) as [[[n|] [[? ?] ?]]| | |]; cbn [bindR]; try reflexivity; destruct (g n); reflexivity.
  Qed.

  Lemma upostc_total f s : upostc_next sg f s = (x <- postc_next g f s ;; Ok (ran_ok x)).
  Proof.
    assert (H : forall f s, loop (upostc_body sg) f s = (x <- loop (postc_body g) f s ;; Ok (let '(y, c) := x in (Done y, Some c)))).
    { apply loop_map; clear; intros f [[[st co] pa] an]; unfold upostc_body, postc_body; destruct st as [|[|n t] rest].
      - destruct co; reflexivity.
      - destruct co; reflexivity.
      - destruct (incr_last pa); cbn [bindR]; try reflexivity; destruct (g n); reflexivity. }
    unfold upostc_next, postc_next, upostc_advance, postc_advance_with; destruct (pt_root s) as [r|].
    - destruct (g r) as [v c]; rewrite H; destruct (loop (postc_body g) f _) as [[[[[? ?] ?] ?] ?]| | |]; reflexivity.
    - destruct (tl (pt_anc s)); [reflexivity|].
      rewrite H; destruct (loop (postc_body g) f _) as [[[[[? ?] ?] ?] ?]| | |]; reflexivity.
  Qed.
  Lemma ubfsc_total f s : ubfsc_next sg f s = (x <- bfsc_next g f s ;; Ok (ran_ok x)).
  Proof.
    assert (H : forall f s, loop (ubfsc_body sg) f s = (x <- loop (bfsc_body g) f s ;; Ok (Done x))).
    { apply loop_map; clear; intros f s; unfold ubfsc_body, bfsc_body.
      destruct (cmaybe_pop _) as [[[[? ?] ?] ?]| | |]; cbn [bindR]; try reflexivity.
      destruct (bc_queue s) as [|[|n t] q]; [reflexivity| |].
      - destruct (cto_next_parent f _) as [[[[? ?] ?] ?]| | |]; cbn [bindR]; try reflexivity; destruct q; reflexivity.
      - destruct (checked_succ (bc_counter s)); cbn [bindR]; try reflexivity; destruct (g n); reflexivity. }
    unfold ubfsc_next, bfsc_next, ubfsc_advance, bfsc_advance, bfsc_advance_with; destruct (bc_is_root s); [reflexivity|].
    destruct (bc_anc s); [reflexivity|]; destruct (unwrap (bc_children s)); cbn [bindR]; try reflexivity.
    rewrite H; destruct (loop (bfsc_body g) f _); reflexivity.
  Qed.
  Lemma ubfsc_new_total r : ubfsc_new sg r = Some (bfsc_new (fst (g r)) (snd (g r)) []).
  Proof. unfold ubfsc_new, ubfsc_start; destruct (g r); reflexivity. Qed.
End Total.

Section TotalBinary.
  Context {Nd V : Type}.
  Variable g : Nd -> V * (option Nd * option Nd).
  Local Notation sg := (fun n => Some (g n)).

  Lemma ubinary_total n : ubinary_gvc sg n = Some (binary_gvc g n).
  Proof. unfold ubinary_gvc, binary_gvc; cbn; destruct (g n) as [v [[?|] [?|]]]; reflexivity. Qed.
  Lemma uin_total f s : uin_next sg f s = (x <- in_next g f s ;; Ok (ran_ok x)).
  Proof.
    unfold uin_next, in_next; destruct (loop in_find_body f _) as [[[[o it] ri]|[cur ri]]| | |]; cbn [bindR]; try reflexivity.
    rewrite (loop_map (@Done _) (in_descend_body g) (uin_descend_body sg)).
    - destruct (loop (in_descend_body g) f _) as [[? ?]| | |]; reflexivity.
    - clear; intros f [[cur ri] it]; unfold uin_descend_body, in_descend_body; destruct cur as [n|]; [destruct (g n) as [v [l r]]|]; reflexivity.
  Qed.
  Lemma uina_total f s : uina_next sg f s = (x <- ina_next g f s ;; Ok (ran_ok x)).
  Proof.
    unfold uina_next, ina_next, uina_advance, ina_advance; destruct (loop ina_find_body f _) as [[a|n a]| | |]; cbn [bindR]; try reflexivity.
    rewrite (loop_map (@Done _) (ina_descend_body g) (uina_descend_body sg)).
    - destruct (loop (ina_descend_body g) f _) as [y| | |]; cbn [bindR]; try reflexivity; destruct (set_returned (ia_status y)); reflexivity.
    - clear; intros f [cur s]; unfold uina_descend_body, ina_descend_body; destruct cur as [n|]; [destruct (g n) as [v [l r]]|]; reflexivity.
  Qed.
  Lemma uinc_total f s : uinc_next sg f s = (x <- inc_next g f s ;; Ok (ran_ok x)).
  Proof.
    unfold uinc_next, inc_next, uinc_advance, inc_advance; destruct (loop inc_find_body f _) as [[a|n a]| | |]; cbn [bindR]; try reflexivity.
    rewrite (loop_map (@Done _) (inc_descend_body g) (uinc_descend_body sg)).
    - destruct (loop (inc_descend_body g) f _) as [y| | |]; cbn [bindR]; try reflexivity; destruct (set_returned (ic_status y)); cbn [bindR]; try reflexivity.
      destruct (ic_conts y); reflexivity.
    - clear; intros f [cur s]; unfold uinc_descend_body, inc_descend_body; destruct cur as [n|]; [destruct (g n) as [v [l r]]|]; reflexivity.
  Qed.
End TotalBinary.
