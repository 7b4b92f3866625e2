(** The orders in which keys can be inserted.  Specification: nothing of the model but [run] (Hist.v) is used. *)
From Verif Require Import Base Spec Ops Hist.

(** The insertion of the keys [ks] in this order, with the values [v] gives them *)
Definition inserts {K V} (v : K -> V) (ks : list K) : list (op K V) := map (fun k => Insert k (v k)) ks.
(** At every point of the history every call other than an insertion is answered as by a sorted map *)
Definition sound {K V} (cmp : K -> K -> comparison) (O : VebOps K V) (cs : list (op K V)) : Prop :=
  forall cs1 cs2 c, cs = cs1 ++ cs2 -> (forall k w, c <> Insert k w) -> exists ot, run O (cs1 ++ [c]) None = Ret (ot, snd (sp_run cmp (cs1 ++ [c]) [])).
(** The smallest key is the first or the second *)
Definition least_early {K} (cmp : K -> K -> comparison) (ks : list K) : Prop :=
  forall k, In k (skipn 2 ks) -> exists x, In x (firstn 2 ks) /\ cmp x k = Lt.
