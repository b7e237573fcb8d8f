(** * ModelUnwindPipeColl: pipelines over collections of trees when user code in them panics and the caller goes on.

    The collection iterators with path tracking do not call user code themselves: they are those of ModelPipeColl, over the
    iterators of ModelUnwindPipe.  A panic in the current tree's iterator leaves [next] (owned.rs 84-101) with that iterator
    still in place, which is what [ct_body] does with any item it gets. *)
From Verif Require Import Prelim Spec ModelNode ModelPre ModelUnwind SpecPipe SpecUnwindPipe ModelPipe ModelPipeColl ModelUnwindPipe.

(** prelude.rs 3600-3602, 4150, 4704; binary 3865-3872, 4418, 4971. *)
Definition uinto_pipeline_each {Nd V} (gvc : Nd -> option (V * list Nd)) (trees : list Nd) : pipe (result V) :=
  mkPipe (ctrack Nd Nd (list Nd)) (ct_new trees) (ct_next (upt_next_with gvc (fun l => l) pt_body)) ct_path ct_prune.
Definition uinto_pipeline_each_binary {Nd V} (gvcb : Nd -> option (V * (option Nd * option Nd))) (trees : list Nd) : pipe (result V) :=
  mkPipe (ctrack Nd (option Nd) (option Nd * option Nd)) (ct_new trees) (ct_next (upt_next_with gvcb pair_iter ptb_body)) ct_path ct_prune.

(** As [each_chain], [each_chain_binary] of ModelPipeColl. *)
Definition ueach_chain {V A} (P : pipe (result V)) (c : uchain V A) : pipe (result A) := urun_chain coll_depth [0%N] P c.
Definition ueach_chain_binary {V A} (P : pipe (result V)) (c : uchain V A) : pipe (result A) := urun_chain_binary coll_depth P c.
