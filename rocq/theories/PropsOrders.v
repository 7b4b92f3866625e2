(** C67: the orders of insertion that the defect of [Tree::insert] (C04, C43, C65) spares.

    Reading guide.  [inserts v ks]: insertions of the keys [ks] in this order.  [sound cmp O cs]: at every point of the history [cs] every call other
    than an insertion is answered as by a sorted map.  [least_early cmp ks]: every key from the third on is above one of the first two, that is, the
    smallest key comes first or second (Orders.v). *)
From Coq Require Import Factorial.
From Verif Require Import Base Ints Ops Spec Laws Key KeyProofs Coll ByteMap BTree Boxed SizedT Tree Markers Types TypesProofs Hist Fits FitsCor Concrete
  Orders OrdersCor.

(** One level of [Tree], boxes and sizes around it allowed: the smallest key has to come first or second *)
Theorem C67_one_level : forall (B : Build) K V cmp (O : VebOps K V) (T : VebType false K V cmp O) (v : K -> V) ks,
  shallow T = true -> plain T = false -> NoDup ks -> (N.of_nat (length ks) <= usize_max)%N ->
  (sound cmp O (inserts v ks) <-> least_early cmp ks).
Proof. exact (fun B K V cmp O T => sound_iff T). Qed.
Print Assumptions C67_one_level.
(** At any depth it has to as well *)
Theorem C67_any_depth : forall (B : Build) K V cmp (O : VebOps K V) (T : VebType false K V cmp O) (v : K -> V) ks,
  plain T = false -> NoDup ks -> (N.of_nat (length ks) <= usize_max)%N -> sound cmp O (inserts v ks) -> least_early cmp ks.
Proof. exact (fun B K V cmp O T => sound_early T). Qed.
Print Assumptions C67_any_depth.
(** Of the n! orders of n keys, 2 (n - 1)! go well: [ps] lists all orders once, [gs] those *)
Theorem C67_count : forall (B : Build) K V cmp (O : VebOps K V) (T : VebType false K V cmp O) (v : K -> V) ks,
  shallow T = true -> plain T = false -> NoDup ks -> 2 <= length ks -> (N.of_nat (length ks) <= usize_max)%N ->
  exists ps gs, NoDup ps /\ NoDup gs /\ (forall p, In p ps <-> Permutation ks p) /\ (forall p, In p gs <-> Permutation ks p /\ sound cmp O (inserts v p)) /\
    length ps = fact (length ks) /\ length gs = 2 * fact (length ks - 1).
Proof. exact (fun B K V cmp O T => orders_count T). Qed.
Print Assumptions C67_count.
(** At any depth no more than these *)
Theorem C67_count_any_depth : forall (B : Build) K V cmp (O : VebOps K V) (T : VebType false K V cmp O) (v : K -> V) ks gs,
  plain T = false -> NoDup ks -> 2 <= length ks -> (N.of_nat (length ks) <= usize_max)%N ->
  NoDup gs -> (forall p, In p gs -> Permutation ks p /\ sound cmp O (inserts v p)) -> length gs <= 2 * fact (length ks - 1).
Proof. exact (fun B K V cmp O T => orders_few T). Qed.
Print Assumptions C67_count_any_depth.
(** Without [Tree], or with [Tree::insert] corrected: all of them *)
Theorem C67_without_defect : forall (B : Build) fixed K V cmp (O : VebOps K V) (T : VebType fixed K V cmp O) (v : K -> V) ks,
  plain T = true \/ fixed = true -> (N.of_nat (length ks) <= usize_max)%N -> sound cmp O (inserts v ks).
Proof. exact (fun B fixed K V cmp O T => inserts_all T). Qed.
Print Assumptions C67_without_defect.

(** Marker16, three keys: the six orders, and whether the iteration and the extremes come out right at the end.  Four go well, those with 300 not last *)
Definition six : list (list (u 16)) :=
  [[b16 300; b16 500; b16 900]; [b16 300; b16 900; b16 500]; [b16 500; b16 300; b16 900]; [b16 900; b16 300; b16 500];
   [b16 500; b16 900; b16 300]; [b16 900; b16 500; b16 300]].
Definition ask3 : list (op (u 16) N) := [Min; Max; Succ (b16 300); Succ (b16 500); Pred (b16 900); Pred (b16 500)].
Definition right3 (ks : list (u 16)) : bool :=
  let cs := inserts uval ks ++ ask3 in
  if list_eq_dec (fun a b : option (N * N) + bool => ltac:(repeat decide equality))
       (map show (answers (run (M16 false N) cs None))) (map show (snd (sp_run u_cmp cs []))) then true else false.
Example C67_case : shallow (T16 false N) = true /\ plain (T16 false N) = false /\ (forall ks, In ks six -> NoDup ks) /\
  map right3 six = [true; true; true; true; false; false] /\ length six = fact 3 /\ 2 * fact (3 - 1) = 4.
Proof.
  split; [reflexivity|]. split; [reflexivity|]. split; [|vm_compute; repeat split]. intros ks H. apply (NoDup_map_inv uval).
  repeat destruct H as [<-|H]; try destruct H; vm_compute; repeat constructor; cbn; intuition discriminate.
Qed.
