(** * PermTac: a tactic for permutations of concatenations. *)
From Coq Require Import List Permutation Arith Lia.
Import ListNotations.

Fixpoint pt_ins (a : nat) (l : list nat) : list nat :=
  match l with [] => [a] | b :: l' => if a <=? b then a :: l else b :: pt_ins a l' end.
Fixpoint pt_sort (l : list nat) : list nat := match l with [] => [] | a :: l' => pt_ins a (pt_sort l') end.
Lemma pt_ins_perm a l : Permutation (pt_ins a l) (a :: l).
Proof. induction l as [|b l IH]; cbn; [apply Permutation_refl|]; destruct (a <=? b); [apply Permutation_refl|]; rewrite IH; apply perm_swap. Qed.
Lemma pt_sort_perm l : Permutation (pt_sort l) l.
Proof. induction l as [|a l IH]; cbn; [constructor|]; rewrite pt_ins_perm, IH; apply Permutation_refl. Qed.

Inductive pt_expr := PtAtom (n : nat) | PtApp (a b : pt_expr) | PtNil.
Fixpoint pt_flat (e : pt_expr) : list nat := match e with PtAtom n => [n] | PtApp a b => pt_flat a ++ pt_flat b | PtNil => [] end.
Fixpoint pt_eval {A} (env : list (list A)) (e : pt_expr) : list A :=
  match e with PtAtom n => nth n env [] | PtApp a b => pt_eval env a ++ pt_eval env b | PtNil => [] end.
Lemma pt_eval_flat {A} (env : list (list A)) e : pt_eval env e = flat_map (fun n => nth n env []) (pt_flat e).
Proof. induction e as [n|a IHa b IHb|]; cbn; [rewrite app_nil_r; reflexivity|rewrite flat_map_app, IHa, IHb; reflexivity|reflexivity]. Qed.
Lemma pt_ok {A} (env : list (list A)) e1 e2 : pt_sort (pt_flat e1) = pt_sort (pt_flat e2) -> Permutation (pt_eval env e1) (pt_eval env e2).
Proof.
  intros E; rewrite !pt_eval_flat; apply Permutation_flat_map.
  rewrite <- (pt_sort_perm (pt_flat e1)), E; apply pt_sort_perm.
Qed.

Ltac pt_index x env n :=
  match env with
  | x :: _ => n
  | _ :: ?env' => pt_index x env' (S n)
  end.
Ltac pt_in x env := match env with | x :: _ => true | _ :: ?env' => pt_in x env' | _ => false end.
Ltac pt_add x env := match pt_in x env with true => env | false => constr:(x :: env) end.
Ltac pt_collect e env :=
  match e with
  | ?a ++ ?b => let env := pt_collect a env in pt_collect b env
  | [] => env
  | ?x :: [] => pt_add e env
  | ?x :: ?l => let env := pt_add ([x]) env in pt_collect l env
  | _ => pt_add e env
  end.
Ltac pt_reify e env :=
  match e with
  | ?a ++ ?b => let a := pt_reify a env in let b := pt_reify b env in constr:(PtApp a b)
  | [] => constr:(PtNil)
  | ?x :: [] => let n := pt_index e env 0 in constr:(PtAtom n)
  | ?x :: ?l => let n := pt_index ([x]) env 0 in let l := pt_reify l env in constr:(PtApp (PtAtom n) l)
  | _ => let n := pt_index e env 0 in constr:(PtAtom n)
  end.
(** Solves [Permutation l r] when both sides are made of the same pieces. *)
Ltac perm :=
  match goal with
  | |- @Permutation ?A ?l ?r =>
      let env := pt_collect l (@nil (list A)) in
      let env := pt_collect r env in
      let a := pt_reify l env in
      let b := pt_reify r env in
      change (Permutation (pt_eval env a) (pt_eval env b)); apply pt_ok; reflexivity
  end.

Lemma pt_with {A} (l r x y : list A) : Permutation x y -> Permutation (l ++ y) (r ++ x) -> Permutation l r.
Proof. intros H E; apply Permutation_app_inv_r with y; rewrite E, H; apply Permutation_refl. Qed.
Tactic Notation "perm" "with" constr(H) := first [apply (pt_with _ _ _ _ H); perm | apply (pt_with _ _ _ _ (Permutation_sym H)); perm].
Tactic Notation "perm" "with" constr(H) "," constr(H2) :=
  first [apply (pt_with _ _ _ _ H); perm with H2 | apply (pt_with _ _ _ _ (Permutation_sym H)); perm with H2].
Tactic Notation "perm" "with" constr(H) "," constr(H2) "," constr(H3) :=
  first [apply (pt_with _ _ _ _ H); perm with H2, H3 | apply (pt_with _ _ _ _ (Permutation_sym H)); perm with H2, H3].

Example perm_ex (a b c d : list nat) x : Permutation a (b ++ c) -> Permutation (x :: a ++ d) (d ++ c ++ x :: b).
Proof. intros H; perm with H. Qed.
