(** * ModelStreamLazy: iterators with context, and postorder and inorder iterators, over collections given by any iterator, of trees
    that are made while they are traversed.

    The collection iterators are those of ModelStream (collection_iterators.rs 68-129 and the seven copies of it cited there), the
    iterators of one tree those of ModelLazy and ModelLazyIn. *)
From Verif Require Import Prelim Spec ModelNode ModelBfs ModelPre ModelIn ModelLazy ModelLazyIn ModelStream.

Section Get.
  Context {Nd V C It : Type}.
  (** [get] dfs_preorder_iterators/mod.rs 219-225 (binary 285-291). *)
  Definition lprec_get (s : @lprec Nd V C It) : option (tree_context V C) :=
    match lpc_anc s with [] => None | anc => Some (mkCtx (rev (lpc_path s)) (rev anc) (lpc_children s)) end.
  (** [get] bfs_iterators/mod.rs 90-96 (binary 262-268). *)
  Definition lbfsc_get (s : @lbfsc Nd V C It) : option (tree_context V C) :=
    match lbc_anc s with [] => None | anc => Some (mkCtx (rev (lbc_path s)) (rev anc) (lbc_children s)) end.
  (** [get] dfs_postorder_iterators/borrow.rs 192-198. *)
  Definition lpostc_get (s : @lpostc Nd V C It) : option (tree_context V C) :=
    match ltc_anc s with [] => None | anc => Some (mkCtx (rev (ltc_path s)) (rev anc) (ltc_children s)) end.
End Get.

Section LazyContexts.
  Context {Src Nd V C It : Type}.
  Variable poll : Src -> option Nd * Src.
  Variable gv : Nd -> V * C.
  Variable into_iter : C -> It.
  Variable pollk : It -> option Nd * It.
  (** [advance] then [get] of the context iterators, collection_iterators.rs 92-128 (mut 507-543, borrowed 731-767), over n-ary trees in
      preorder, breadth first and in postorder. *)
  Definition lprec_stream_next := scollc_next poll lprec_new (lprec_next gv into_iter (nary_scan pollk)) lprec_get.
  Definition lbfsc_stream_next := scollc_next poll (lbfsc_new gv) (lbfsc_next gv into_iter (nary_fetch pollk)) lbfsc_get.
  Definition lpostc_stream_next := scollc_next poll lpostc_new (lpostc_next gv into_iter (nary_scan pollk)) lpostc_get.
  (** [next], collection_iterators.rs 32-48 (mut 447-463, borrowed 671-687), over n-ary trees in postorder. *)
  Definition lpost_stream_next := scoll_next poll lpost_new (lpost_next gv into_iter pollk).
End LazyContexts.

Section LazyBinaryContexts.
  Context {Src Nd V : Type}.
  Variable poll : Src -> option Nd * Src.
  Variable gvcb : Nd -> V * (option Nd * option Nd).
  (** [advance] then [get] of the context iterators, collection_iterators.rs 276-311 (mut 599-635, borrowed 811-847), over binary trees in
      preorder, breadth first and in postorder. *)
  Definition lprecb_stream_next := scollc_next poll lprec_new (lprec_next gvcb pair_iter prec_scan) lprec_get.
  Definition lbfscb_stream_next := scollc_next poll (lbfsc_new gvcb) (lbfsc_next gvcb pair_iter bfsc_skip) lbfsc_get.
  Definition lpostcb_stream_next := scollc_next poll lpostc_new (lpostc_next gvcb pair_iter prec_scan) lpostc_get.
  (** [next], collection_iterators.rs 32-48 (mut 447-463, borrowed 671-687), over binary trees in inorder. *)
  Definition lin_stream_next := scoll_next poll (@lin_new Nd V) (lin_next gvcb).
  (** [advance] then [get] of the context iterators, collection_iterators.rs 276-311 (mut 599-635, borrowed 811-847), over binary trees in
      inorder; [linco_stream_next] is that of owned trees, whose contexts have no children (collection_iterators.rs 364-399). *)
  Definition linc_stream_next := scollc_next poll (@linc_new Nd V) (linc_next gvcb) (fun s => inc_get (snd s)).
  Definition linco_stream_next := scollc_next poll (@linco_new Nd V) (linco_next gvcb) (fun s => inco_get (snd s)).
End LazyBinaryContexts.
