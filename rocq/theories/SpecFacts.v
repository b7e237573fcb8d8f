(** * Facts about the specification. *)
From Coq Require Import Permutation.
From Verif Require Import Prelim Spec.

Section TreeInd.
  Context {A : Type} (P : tree A -> Prop).
  Hypothesis HN : forall v ts, Forall P ts -> P (TNode v ts).
  Fixpoint tree_ind' (t : tree A) : P t :=
    match t with
    | TNode v ts =>
        HN v ts ((fix go (l : list (tree A)) : Forall P l :=
                    match l with
                    | [] => Forall_nil P
                    | x :: xs => Forall_cons x (tree_ind' x) (go xs)
                    end) ts)
    end.
End TreeInd.

Definition OForall {A} (P : A -> Prop) (o : option A) : Prop :=
  match o with Some a => P a | None => True end.

Section BtreeInd.
  Context {A : Type} (P : btree A -> Prop).
  Hypothesis HB : forall v l r, OForall P l -> OForall P r -> P (BNode v l r).
  Fixpoint btree_ind' (t : btree A) : P t :=
    match t with
    | BNode v l r =>
        HB v l r
          (match l return OForall P l with Some x => btree_ind' x | None => I end)
          (match r return OForall P r with Some x => btree_ind' x | None => I end)
    end.
End BtreeInd.

Lemma flat_map_ext_Forall {A B} (f g : A -> list B) l :
  Forall (fun x => f x = g x) l -> flat_map f l = flat_map g l.
Proof. induction 1 as [|x l Hx _ IH]; cbn; [reflexivity|rewrite Hx, IH; reflexivity]. Qed.

Lemma map_flat_map {A B C} (f : B -> C) (g : A -> list B) l :
  map f (flat_map g l) = flat_map (fun x => map f (g x)) l.
Proof. induction l as [|x l IH]; cbn; [reflexivity|rewrite map_app, IH; reflexivity]. Qed.

Lemma flat_map_map {A B C} (f : A -> B) (g : B -> list C) l :
  flat_map g (map f l) = flat_map (fun x => g (f x)) l.
Proof. induction l as [|x l IH]; cbn; [reflexivity|rewrite IH; reflexivity]. Qed.

Lemma flat_map_nil {A B} (f : A -> list B) l : (forall x, In x l -> f x = []) -> flat_map f l = [].
Proof.
  induction l as [|x l IH]; cbn; intros H; [reflexivity|].
  rewrite H by (left; reflexivity); apply IH; intros; apply H; right; assumption.
Qed.

Lemma tree_map_map {A B C} (f : A -> B) (g : B -> C) t : tree_map g (tree_map f t) = tree_map (fun x => g (f x)) t.
Proof.
  induction t as [v ts IH] using tree_ind'; cbn; f_equal.
  rewrite map_map; apply map_ext_Forall; exact IH.
Qed.

Lemma tree_map_ext {A B} (f g : A -> B) t : (forall x, f x = g x) -> tree_map f t = tree_map g t.
Proof.
  intros H; induction t as [v ts IH] using tree_ind'; cbn; rewrite H; f_equal.
  apply map_ext_Forall; exact IH.
Qed.

Lemma tree_map_id {A} (t : tree A) : tree_map (fun x => x) t = t.
Proof.
  induction t as [v ts IH] using tree_ind'; cbn; f_equal.
  induction IH as [|x l Hx _ IHl]; cbn; [reflexivity|rewrite Hx, IHl; reflexivity].
Qed.

Lemma preorder_map {A B} (f : A -> B) t : preorder (tree_map f t) = map f (preorder t).
Proof.
  induction t as [v ts IH] using tree_ind'; cbn; f_equal.
  rewrite flat_map_map, map_flat_map; apply flat_map_ext_Forall; exact IH.
Qed.

Lemma postorder_map {A B} (f : A -> B) t : postorder (tree_map f t) = map f (postorder t).
Proof.
  induction t as [v ts IH] using tree_ind'; cbn; rewrite map_app; f_equal.
  rewrite flat_map_map, map_flat_map; apply flat_map_ext_Forall; exact IH.
Qed.

Lemma inorder_map {A B} (f : A -> B) t : inorder (btree_map f t) = map f (inorder t).
Proof.
  induction t as [v l r IHl IHr] using btree_ind'; cbn.
  rewrite map_app; cbn.
  destruct l as [l|], r as [r|]; cbn in *; rewrite ?IHl, ?IHr; reflexivity.
Qed.

Lemma level_map {A B} (f : A -> B) t : forall d, level d (tree_map f t) = map f (level d t).
Proof.
  induction t as [v ts IH] using tree_ind'; intros [|d]; cbn; [reflexivity|].
  rewrite flat_map_map, map_flat_map; apply flat_map_ext_Forall.
  eapply Forall_impl; [|exact IH]; cbn; auto.
Qed.

Lemma height_map {A B} (f : A -> B) t : height (tree_map f t) = height t.
Proof.
  induction t as [v ts IH] using tree_ind'; cbn; do 2 f_equal.
  rewrite map_map; apply map_ext_Forall; exact IH.
Qed.

Lemma bfs_map {A B} (f : A -> B) t : bfs (tree_map f t) = map f (bfs t).
Proof.
  unfold bfs; rewrite height_map, map_flat_map; apply flat_map_ext; intros; apply level_map.
Qed.

Lemma flat_btree_map {A B} (f : A -> B) (t : btree A) : flat (btree_map f t) = tree_map f (flat t).
Proof.
  induction t as [v l r IHl IHr] using btree_ind'; cbn; f_equal.
  destruct l as [l|], r as [r|]; cbn in *; rewrite ?IHl, ?IHr; reflexivity.
Qed.

Lemma btree_map_map {A B C} (f : A -> B) (g : B -> C) t : btree_map g (btree_map f t) = btree_map (fun x => g (f x)) t.
Proof.
  induction t as [v l r IHl IHr] using btree_ind'; cbn.
  destruct l as [l|], r as [r|]; cbn in *; rewrite ?IHl, ?IHr; reflexivity.
Qed.

Lemma btree_map_ext {A B} (f g : A -> B) t : (forall x, f x = g x) -> btree_map f t = btree_map g t.
Proof.
  intros H; induction t as [v l r IHl IHr] using btree_ind'; cbn; rewrite H.
  destruct l as [l|], r as [r|]; cbn in *; rewrite ?IHl, ?IHr; reflexivity.
Qed.

Lemma btree_map_id {A} (t : btree A) : btree_map (fun x => x) t = t.
Proof.
  induction t as [v l r IHl IHr] using btree_ind'; cbn.
  destruct l as [l|], r as [r|]; cbn in *; rewrite ?IHl, ?IHr; reflexivity.
Qed.

(** ** Levels *)

Lemma list_max_in l n : In n l -> n <= list_max l.
Proof.
  intros H; assert (HH : Forall (fun k => k <= list_max l) l) by (apply list_max_le; lia).
  rewrite Forall_forall in HH; auto.
Qed.

Lemma level_above_height {A} (t : tree A) : forall d, height t <= d -> level d t = [].
Proof.
  induction t as [v ts IH] using tree_ind'; intros [|d] Hd; cbn in *; [lia|].
  apply flat_map_nil; intros x Hx.
  rewrite Forall_forall in IH; apply IH; [exact Hx|].
  pose proof (list_max_in (map height ts) (height x) (in_map _ _ _ Hx)); lia.
Qed.

Lemma flat_map_seq_extend {B} (f : nat -> list B) a n m :
  n <= m -> (forall d, a + n <= d -> f d = []) -> flat_map f (seq a m) = flat_map f (seq a n).
Proof.
  intros Hle H; replace m with (n + (m - n)) by lia.
  rewrite seq_app, flat_map_app.
  rewrite (flat_map_nil f (seq (a + n) (m - n))); [apply app_nil_r|].
  intros x Hx; apply in_seq in Hx; apply H; lia.
Qed.

Lemma bfs_bound {A} (t : tree A) D : height t <= D -> bfs t = flat_map (fun d => level d t) (seq 0 D).
Proof.
  intros H; unfold bfs; symmetry; apply flat_map_seq_extend; [exact H|].
  intros d Hd; apply level_above_height; lia.
Qed.

(** ** Subtrees *)
Lemma subtrees_root {A} (t : tree A) : tree_map root (subtrees t) = t.
Proof.
  induction t as [v ts IH] using tree_ind'; cbn; f_equal.
  rewrite map_map; induction IH as [|x l Hx _ IHl]; cbn; [reflexivity|rewrite Hx, IHl; reflexivity].
Qed.

Lemma bsubtrees_root {A} (t : btree A) : btree_map broot (bsubtrees t) = t.
Proof.
  induction t as [v l r IHl IHr] using btree_ind'; cbn.
  destruct l as [l|], r as [r|]; cbn in *; rewrite ?IHl, ?IHr; reflexivity.
Qed.

(** ** mapi *)
Lemma mapi_cons {A B} (f : nat -> A -> B) i x l : mapi f i (x :: l) = f i x :: mapi f (S i) l.
Proof. reflexivity. Qed.

Lemma mapi_app {A B} (f : nat -> A -> B) i l l' :
  mapi f i (l ++ l') = mapi f i l ++ mapi f (i + length l) l'.
Proof.
  revert i; induction l as [|x l IH]; intros i; cbn [app length].
  - rewrite Nat.add_0_r; reflexivity.
  - rewrite !mapi_cons, IH; cbn [app]; do 3 f_equal; lia.
Qed.

Lemma mapi_map {A B C} (f : nat -> B -> C) (g : A -> B) i l :
  mapi f i (map g l) = mapi (fun j x => f j (g x)) i l.
Proof. revert i; induction l as [|x l IH]; intros i; cbn; [reflexivity|rewrite IH; reflexivity]. Qed.

Lemma map_mapi {A B C} (f : nat -> A -> B) (g : B -> C) i l :
  map g (mapi f i l) = mapi (fun j x => g (f j x)) i l.
Proof. revert i; induction l as [|x l IH]; intros i; cbn; [reflexivity|rewrite IH; reflexivity]. Qed.

Lemma mapi_ext_Forall {A B} (f g : nat -> A -> B) i l :
  Forall (fun x => forall j, f j x = g j x) l -> mapi f i l = mapi g i l.
Proof.
  intros H; revert i; induction H as [|x l Hx _ IH]; intros i; cbn; [reflexivity|rewrite Hx, IH; reflexivity].
Qed.

Lemma mapi_ext {A B} (f g : nat -> A -> B) i l : (forall j x, f j x = g j x) -> mapi f i l = mapi g i l.
Proof. intros H; apply mapi_ext_Forall, Forall_forall; auto. Qed.

Lemma mapi_length {A B} (f : nat -> A -> B) i l : length (mapi f i l) = length l.
Proof. revert i; induction l as [|x l IH]; intros i; cbn; [reflexivity|rewrite IH; reflexivity]. Qed.

Lemma nth_error_mapi {A B} (f : nat -> A -> B) i l k :
  nth_error (mapi f i l) k = option_map (f (i + k)) (nth_error l k).
Proof.
  revert i k; induction l as [|x l IH]; intros i [|k]; cbn; try reflexivity.
  - rewrite Nat.add_0_r; reflexivity.
  - rewrite IH; do 2 f_equal; lia.
Qed.

(** ** Positions *)
Definition pos_map {A B} (f : A -> B) (p : pos A) : pos B :=
  mkPos (pos_path p) (map f (pos_above p)) (f (pos_here p)).

Lemma annotate_map {A B} (f : A -> B) t : forall p ab,
  annotate p (map f ab) (tree_map f t) = tree_map (pos_map f) (annotate p ab t).
Proof.
  induction t as [v ts IH] using tree_ind'; intros p ab; cbn; f_equal.
  rewrite mapi_map, map_mapi; apply mapi_ext_Forall.
  eapply Forall_impl; [|exact IH]; cbn; intros x Hx j.
  rewrite <- Hx, map_app; reflexivity.
Qed.

Lemma bannotate_map {A B} (f : A -> B) t : forall p ab,
  bannotate p (map f ab) (btree_map f t) = btree_map (pos_map f) (bannotate p ab t).
Proof.
  induction t as [v l r IHl IHr] using btree_ind'; intros p ab; cbn.
  change [f v] with (map f [v]); rewrite <- map_app.
  destruct l as [l|], r as [r|]; cbn in *; rewrite ?IHl, ?IHr; reflexivity.
Qed.

Lemma annotate_here {A} (t : tree A) : forall p ab, tree_map pos_here (annotate p ab t) = t.
Proof.
  induction t as [v ts IH] using tree_ind'; intros p ab; cbn; f_equal.
  rewrite map_mapi.
  generalize 0; induction IH as [|x l Hx _ IHl]; intros i; cbn; [reflexivity|].
  rewrite Hx, IHl; reflexivity.
Qed.

Lemma bannotate_here {A} (t : btree A) : forall p ab, btree_map pos_here (bannotate p ab t) = t.
Proof.
  induction t as [v l r IHl IHr] using btree_ind'; intros p ab; cbn.
  destruct l as [l|], r as [r|]; cbn in *; rewrite ?IHl, ?IHr; reflexivity.
Qed.

(** ** Permutations between the orders *)
Lemma flat_map_perm {A B} (f g : A -> list B) l :
  Forall (fun x => Permutation (f x) (g x)) l -> Permutation (flat_map f l) (flat_map g l).
Proof. induction 1 as [|x l Hx _ IH]; cbn; [constructor|apply Permutation_app; assumption]. Qed.

Lemma postorder_perm {A} (t : tree A) : Permutation (postorder t) (preorder t).
Proof.
  induction t as [v ts IH] using tree_ind'; cbn.
  rewrite <- Permutation_cons_append; constructor; apply flat_map_perm; exact IH.
Qed.

Lemma inorder_perm {A} (t : btree A) : Permutation (inorder t) (preorder (flat t)).
Proof.
  induction t as [v l r IHl IHr] using btree_ind'; cbn.
  rewrite flat_map_app.
  symmetry; apply Permutation_cons_app; symmetry; apply Permutation_app.
  - destruct l as [l|]; cbn in *; rewrite ?app_nil_r; auto.
  - destruct r as [r|]; cbn in *; rewrite ?app_nil_r; auto.
Qed.

Lemma flat_map_swap {A B C} (f : A -> B -> list C) l l' :
  Permutation (flat_map (fun a => flat_map (f a) l') l) (flat_map (fun b => flat_map (fun a => f a b) l) l').
Proof.
  induction l as [|a l IH]; cbn.
  - rewrite flat_map_nil; [constructor|reflexivity].
  - rewrite IH; clear IH.
    induction l' as [|b l' IH]; cbn; [constructor|].
    rewrite <- !app_assoc; apply Permutation_app_head.
    rewrite Permutation_app_swap_app.
    apply Permutation_app_head; exact IH.
Qed.

Lemma bfs_perm_bound {A} (t : tree A) : forall D, height t <= D ->
  Permutation (flat_map (fun d => level d t) (seq 0 D)) (preorder t).
Proof.
  induction t as [v ts IH] using tree_ind'; intros [|D] HD; cbn in HD; [lia|].
  cbn [seq flat_map level preorder app]; constructor.
  rewrite <- seq_shift, flat_map_map; cbn [level].
  rewrite (flat_map_swap (fun d c => level d c)).
  apply flat_map_perm.
  rewrite Forall_forall in *; intros x Hx.
  apply IH; [exact Hx|].
  pose proof (list_max_in (map height ts) (height x) (in_map _ _ _ Hx)); lia.
Qed.

Lemma bfs_perm {A} (t : tree A) : Permutation (bfs t) (preorder t).
Proof. apply bfs_perm_bound; reflexivity. Qed.
