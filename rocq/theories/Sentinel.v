(** Keeping the least key in a tree.  Specification: nothing of the model is used. *)
From Verif Require Import Base Spec Ops Hist.

(** No key is below [b] *)
Definition bottom {K} (cmp : K -> K -> comparison) (b : K) : Prop := forall k, cmp k b <> Lt.
(** At every point of the history [cs] the sorted map holds the key [b] *)
Definition keeps {K V} (cmp : K -> K -> comparison) (b : K) (cs : list (op K V)) (l : list (K * V)) : Prop :=
  forall cs1 cs2, cs = cs1 ++ cs2 -> In b (keys (fst (sp_run cmp cs1 l))).
(** There is room at every insertion *)
Definition roomy {B : Build} {K V} (cmp : K -> K -> comparison) (cs : list (op K V)) (l : list (K * V)) : Prop :=
  forall cs1 cs2 k v, cs = cs1 ++ Insert k v :: cs2 -> (N.of_nat (length (fst (sp_run cmp cs1 l))) < usize_max)%N.
