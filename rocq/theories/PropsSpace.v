(** C50, C51: the cost of iterations and of whole histories, and how much a tree holds.
    [type_cost T], [calls], [slots], [depth T] and [largest_array T] are those of PropsCost.v; [cit_run] and [crun]
    (CostIter.v) are iterations and histories with counted trees; [nodes], [keys_held], [collections] and [slots_held]
    (Space.v) read off the state of a tree how many [Tree]s and leaves, keys, collections and slots of arrays it holds, at all levels and in
    summaries too.  [contents] (Hist.v) is what draining the tree yields.  For the rest of the notation see the head of PropsMap.v. *)
From Verif Require Import Base Ints Ops Spec Key ByteSet ByteMap Coll Boxed BTree SizedT Tree Markers Laws Lists CollProofs
  KeyProofs Hist Types HistProofs TypesProofs HistCor Concrete Iter IterSpec Cost CostCor CostIter CostIterCor Space SpaceCor PropsCost Fits FitsCor.
Local Open Scope N_scope.

(** ** C50 What is counted is what runs ... *)
Theorem C50_faithful : forall (B : Build) fixed K V cmp (O : VebOps K V) (T : VebType fixed K V cmp O),
  (forall t dirs it, outcome (cit_run (type_cost T) (eqb cmp) t dirs it) = it_run O (eqb cmp) t dirs it) /\
  (forall cs ot, outcome (crun (type_cost T) cs ot) = run O cs ot).
Proof. exact (fun B fixed K V cmp O T => conj (iter_erases T) (fun cs ot => proj1 (hist_cost T cs ot))). Qed.
Print Assumptions C50_faithful.
(** ... a call of [next] or [next_back] costs as much as [successor] or [predecessor], the first costs one call, and none does
    once the iterator has stopped, whatever tree and iterator ... *)
Theorem C50_call : forall (B : Build) fixed K V cmp (O : VebOps K V) (T : VebType fixed K V cmp O) t,
  (forall b it, calls (cit_call (type_cost T) (eqb cmp) t b it) <= 5 * depth T + 1 /\ slots (cit_call (type_cost T) (eqb cmp) t b it) = 0) /\
  (forall b, calls (cit_call (type_cost T) (eqb cmp) t b it_new) <= 1) /\
  (forall dirs it, it_data it = None -> calls (cit_run (type_cost T) (eqb cmp) t dirs it) = 0).
Proof. exact @iter_call_costs. Qed.
Print Assumptions C50_call.
(** ... so that any sequence of them over a tree that holds [l], however long, costs no more than one call per pair and
    one more ... *)
Theorem C50_iteration : forall (B : Build) fixed K V cmp (O : VebOps K V) (T : VebType fixed K V cmp O) adm t l dirs,
  allowed T adm -> reached cmp O adm t l ->
  calls (cit_run (type_cost T) (eqb cmp) t dirs it_new) <= N.min (N.of_nat (length dirs)) (N.of_nat (length l) + 1) * (5 * depth T + 1).
Proof. exact @iter_cost. Qed.
Print Assumptions C50_iteration.
(** ... and any history costs no more than the sum of the prices of its calls, and allocates at most one array per insertion *)
Theorem C50_history : forall (B : Build) fixed K V cmp (O : VebOps K V) (T : VebType fixed K V cmp O) cs ot,
  calls (crun (type_cost T) cs ot) <= total_price (depth T) cs /\
  slots (crun (type_cost T) cs ot) <= insertions cs * largest_array T.
Proof. exact (fun B fixed K V cmp O T cs ot => proj2 (hist_cost T cs ot)). Qed.
Print Assumptions C50_history.
(** ... no array at all where the type has none *)
Theorem C50_no_arrays : forall (B : Build) fixed K V cmp (O : VebOps K V) (T : VebType fixed K V cmp O) cs ot,
  without_arrays T = true -> slots (crun (type_cost T) cs ot) = 0.
Proof.
  exact (fun B fixed K V cmp O T cs ot H => proj1 (N.le_0_r _) (eq_ind _ (fun n => slots (crun (type_cost T) cs ot) <= n) (proj2 (proj2 (hist_cost T cs ot))) _
    (eq_trans (f_equal (N.mul (insertions cs)) (no_arrays_zero T H)) (N.mul_0_r _)))).
Qed.
Print Assumptions C50_no_arrays.
(** a tree over 16 bits with a hash map for its children, filled; and the same with an array *)
Definition hashed16 : VebType false _ N _ _ :=
  VT_Tree false _ _ _ _ u16_key u16_laws _ _ _ (VT_ByteSet false) (VT_ByteMap false N) (CT_Hash _ _ u_eqb u_eqb_eq).
Definition fill16 : list (op (u 16) N) := map (fun n => Insert (b16 n) n) [5; 300; 301; 700; 9000; 9001].
Example C50_no_arrays_case : without_arrays hashed16 = true /\ calls (crun (type_cost hashed16) fill16 None) <> 0 /\
  slots (crun (type_cost hashed16) fill16 None) = 0 /\ slots (crun (type_cost (T16 false N)) fill16 None) = 256.
Proof. split; [reflexivity|]. split; [vm_compute; discriminate|]. split; vm_compute; reflexivity. Qed.
(** the busy tree of C44, read to its end and beyond, and filled and drained *)
Definition busy_list : list (u 32 * N) := map (fun c => match c with Insert k v => (k, v) | _ => (b32 0, 0) end) busy32.
Example C50_case : allowed (TH32 false N) (adm_ascending u_cmp) /\ reached u_cmp (H32 false N) (adm_ascending u_cmp) busy_tree busy_list /\
  calls (cit_run count32 (eqb u_cmp) busy_tree [false] it_new) = 1 /\
  calls (cit_run count32 (eqb u_cmp) busy_tree (repeat false 20) it_new) = 92 /\
  calls (cit_run count32 (eqb u_cmp) busy_tree (repeat true 20) it_new) = 92 /\
  calls (crun count32 (busy32 ++ repeat RemoveMin 14) None) = 146 /\
  slots (crun count32 (busy32 ++ repeat RemoveMin 14) None) = 768 /\
  total_price 2 (busy32 ++ repeat RemoveMin 14) = 224 /\ insertions (busy32 ++ repeat RemoveMin 14) * largest_array (TH32 false N) = 14 * 256.
Proof.
  split; [apply AL_ascending|]. split.
  { apply (reached_asc_ex u_cmp (u_cmp_laws _) busy32).
    - apply tree_of_ok. vm_compute. reflexivity.
    - apply look_inj. vm_compute. reflexivity.
    - vm_compute. reflexivity. }
  repeat split; vm_compute; reflexivity.
Qed.

(** ** C51 A tree of [n] pairs and depth [d] is made of at most [d (n - 1) + 1] [Tree]s and leaves; it holds at most [d (n - 1)] keys
    besides those of its pairs, and at most [d (n - 1) / 2] collections, whatever the history ... *)
Theorem C51_space : forall (B : Build) fixed K V cmp (O : VebOps K V) (T : VebType fixed K V cmp O) t, reachable O t ->
  exists d, contents O t d /\
  let n := N.of_nat (length d) in
  1 <= n /\ nodes T t <= depth T * (n - 1) + 1 /\ keys_held T t <= n + depth T * (n - 1) /\
  2 * collections T t <= depth T * (n - 1) /\ slots_held T t <= collections T t * largest_array T.
Proof. exact @space. Qed.
Print Assumptions C51_space.
(** ... and from three pairs on, at least the array of the outermost [Tree] *)
Theorem C51_least : forall (B : Build) fixed K V cmp (O : VebOps K V) (T : VebType fixed K V cmp O) t, reachable O t ->
  exists d, contents O t d /\
  let n := N.of_nat (length d) in n <= keys_held T t /\ (3 <= n -> first_array T <= slots_held T t).
Proof. exact @space_least. Qed.
Print Assumptions C51_least.
(** the busy tree again, and one of Marker16 with every key in a child of its own, where the bounds are met *)
Definition spread16 : list (op (u 16) N) := map (fun n => Insert (b16 n) n) [5; 300; 600; 900; 1200].
Definition spread_tree : vt (M16 false N) := tree_of (M16 false N) spread16 (v_from_monad (M16 false N) (b16 0) 0).
Definition three_tree : vt (M16 false N) := tree_of (M16 false N) (firstn 3 spread16) (v_from_monad (M16 false N) (b16 0) 0).
Example C51_case :
  (reachable (H32 false N) busy_tree /\ nodes (TH32 false N) busy_tree = 16 /\ keys_held (TH32 false N) busy_tree = 25 /\
   collections (TH32 false N) busy_tree = 4 /\ slots_held (TH32 false N) busy_tree = 768) /\
  (reachable (M16 false N) spread_tree /\ nodes (T16 false N) spread_tree = 1 * (5 - 1) + 1 /\ keys_held (T16 false N) spread_tree = 8) /\
  (reachable (M16 false N) three_tree /\ 2 * collections (T16 false N) three_tree = 1 * (3 - 1) /\
   slots_held (T16 false N) three_tree = collections (T16 false N) three_tree * largest_array (T16 false N) /\
   slots_held (T16 false N) three_tree = 256).
Proof.
  split; [|split].
  - split; [|repeat split; vm_compute; reflexivity].
    apply (reachable_ex busy32); [apply tree_of_ok|]; vm_compute; reflexivity.
  - split; [|repeat split; vm_compute; reflexivity].
    apply (reachable_ex spread16); [apply tree_of_ok|]; vm_compute; reflexivity.
  - split; [|repeat split; vm_compute; reflexivity].
    apply (reachable_ex (firstn 3 spread16)); [apply tree_of_ok|]; vm_compute; reflexivity.
Qed.
